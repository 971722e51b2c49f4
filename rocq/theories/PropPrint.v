(** C79: what a back-translation is written with. *)
From Coq Require Import Permutation Strings.String.
From Coq Require Import List.
From Verif Require Import Base BaseProofs RuleModel TranslationModel TranslationProofs TableModel TableProofs RegexpModel PatternModel BrailleModel BrailleProofs
  OperandModel OperandSpec TestSpec PropContext HyphenationModel TrieModel TrieProofs LoopModel PrimaryProofs CompileModel CompileSpec CompileProofs MainTable
  ConstraintModel ConstraintSpec ConstraintProofs IndicatorModel EmphSpec MainSpec StepProofs TraceSpec SetupSpec SetupProofs CapsSpec CapsEmphSpec SignSpec SignProofs PropIndicators PropCapsEmph MainPass StepFacts TraceProofs
  PassSpec PropMultipass PropPasses PropSwap PropMain PropMainExamples WordProofs PropUndefined PipelineModel PipelineSpec PipelineProofs PropPipeline
  SaysSpec PropPieces PropCells.
From Verif Require PropPatterns LocalPass.

(** ** Specification *)
(** What the rules of a backward table write: text; match rules, which are not turned round, their
    dots; and signs, which are also put into text that is print, their dots. *)
Definition rule_writes (A : char -> Prop) (x : context) (r : rule) : Prop :=
  forall text dots, says x r text dots -> Forall A (if is_match r then dots else text).
Definition signs_written (A : char -> Prop) (rules : list rule) : Prop := forall r g, In r rules -> sign_dots r = Some g -> Forall A g.
(** what stands for cells that no rule is for: the dots of [undefined], or [\x1234] in the cells that the table
    has for these characters *)
Definition unknown_writes (A : char -> Prop) (x : context) (rules : list rule) : Prop :=
  (forall dots, In (RUndefined dots) rules -> Forall A dots) /\
  ((forall dots, ~ In (RUndefined dots) rules) ->
   forall c, In c (lit "\x0123456789abcdef") ->
     (forall g, defs_get (x_defs x) c = Some g -> Forall A g) /\ (forall u, fallback c = Ok u -> A u)).
(** the rules that write after the cells were read: those of the main pass and corrections *)
Definition text_written (A : char -> Prop) (x : context) (table : list rule) : Prop :=
  forall r, In r (filter (is_direction Backward) table) ->
  rule_writes A x r /\
  match r with
  | RContext _ action _ => context_writes A action
  | RCorrect _ action _ => pass_writes A table action
  | _ => True
  end.

(** a rule that defines a character, or an indicator that is read *)
Definition defines (r : rule) : bool :=
  match r with
  | RSpace _ _ _ | RPunctuation _ _ _ | RDigit _ _ _ | RLetter _ _ _ | RBase _ _ _ | RLowercase _ _ _ | RUppercase _ _ _
  | RLitdigit _ _ _ | RSign _ _ _ | RMath _ _ _ | RDecpoint _ _ | RHyphen _ _ _ => true
  | RNumsign _ | RNonumsign _ _ | RCapsletter _ _ | RBegcapsword _ _ | REndcapsword _ _ => true
  | _ => false
  end.
(** A cell the table knows: one that is all the dots of a character or indicator, and not those of a
    prepunc or postpunc rule. *)
Definition known_cell (x : context) (rules : list rule) (c : char) : Prop :=
  (exists r text, In r rules /\ defines r = true /\ says x r text [c]) /\
  (forall text k, ~ In (RPrepunc text [c] k) rules) /\ (forall text k, ~ In (RPostpunc text [c] k) rules).

(** the letters of [\x1234] *)
Lemma hex_loop_letters fuel : forall v acc, (forall c, In c acc -> In c (lit "\x0123456789abcdef")) ->
  forall c, In c (hex_loop fuel v acc) -> In c (lit "\x0123456789abcdef").
Proof.
  induction fuel as [|f IH]; intros v acc H c; cbn [hex_loop]; [apply H|].
  assert (H' : forall c, In c (hex_digit (v mod 16) :: acc) -> In c (lit "\x0123456789abcdef")).
  { intros y [<-|Hy]; [|auto]. assert (V : (v mod 16 < 16)%N) by (apply N.mod_lt; lia). revert V. generalize (v mod 16)%N. intros d V.
    assert (E : exists k, k < 16 /\ d = N.of_nat k) by (exists (N.to_nat d); split; lia).
    destruct E as (k & Hk & ->). do 16 (destruct k as [|k]; [vm_compute; tauto|]). lia. }
  destruct (N.ltb v 16); [apply H'|apply IH; exact H'].
Qed.
Lemma escape_letters c : forall y, In y (escape_char c) -> In y (lit "\x0123456789abcdef").
Proof. intros y [<-|[<-|H]]; [vm_compute; tauto|vm_compute; tauto|]. revert H. apply hex_loop_letters. intros z []. Qed.

(** Cells that are print for no rule of the table: none of them is a letter or digit of it, and no
    contraction is made of them. *)
Definition no_print (x : context) (rules : list rule) (cells : str) : Prop :=
  (forall c, In c cells -> cls_has (x_chars x) CLitdigit c = false /\
     forall k, In k [CLetter; CUppercase; CLowercase] -> cls_has (x_chars x) k c = false) /\
  (forall text, In (RContraction text) rules -> exists c, In c text /\ ~ In c cells).

(** ** The main pass *)
Section Main.
Variable A : char -> Prop.
Variable is_alphabetic : char -> bool.
Variable compat : bool.
Variable read_dictionary : str -> tres hyph.
Variable x : context.
Variable rules : list rule.
Variable lower upper : char -> list char.
Variable sort : list event -> res (list event).
Variable m : main_table.
Hypothesis UP : forall c, A c -> Forall A (upper c).
Hypothesis EX : context_compile is_alphabetic compat rules = TOk x.
Hypothesis B : main_built is_alphabetic compat read_dictionary Backward x rules m.
Hypothesis DR : dictionaries_read read_dictionary.
Hypothesis SR : sort_rearranges sort.
Hypothesis W : forall r, In r rules -> rule_writes A x r.
Hypothesis WC : forall test action k, In (RContext test action k) rules -> context_writes A action.

Lemma capitals_in text out : capitals upper text out -> Forall A text -> Forall A out.
Proof.
  intros [-> |[-> |(c & r & -> & ->)]] F; [exact F| |].
  - apply Forall_flat_map. eapply Forall_impl; [exact UP|exact F].
  - inversion F; subst. apply Forall_app. auto.
Qed.
Lemma actions_in' replaced action : context_writes A action -> Forall A (flat_map (action_output (table_swap x) replaced) action).
Proof.
  intros (S & D & N & R). apply Forall_flat_map. apply Forall_forall. intros i I. destruct i; cbn [action_output]; try constructor; eauto.
  all: first [destruct (R I)|destruct (N _ I)].
Qed.
Lemma context_found' rest b e u : pattern_offers lower (flat_map (context_entries x) rules) e b rest u -> Forall A (r_output u).
Proof.
  intros (p & Hp & F). apply in_flat_map in Hp. destruct Hp as (r & Hr & Hp). destruct r; cbn [context_entries] in Hp; try (destruct Hp; fail).
  destruct (context_insert x test action _ Main) as [q| |] eqn:CI; try (destruct Hp; fail). destruct Hp as [<-|[]].
  destruct (rule_offer _ _ _ _ _ _ _ _ _ _ _ CI F) as (_ & O & _). rewrite O. apply actions_in'. eapply WC, Hr.
Qed.
Notation src := (rule_sources compat Backward x rules lower).
(** A piece writes what rules write, or stands for a cell that no rule could be used for. *)
Definition nothing_for (lim : pos_flags) (input : str) (t : resolved) : Prop := r_origin t = None /\
  exists a c rest u, left input a = c :: rest /\ r_input t = [c] /\ by_character src c u /\ r_output t = r_output u /\
    forall v, available src Backward lim input a v -> ~ new a v.
Lemma piece_in input spans out : main_trace lower upper sort m input spans = Ok out ->
  exists sp lim, enriched m input spans = Ok sp /\ restrictions (build_constrainers is_alphabetic read_dictionary Backward x rules) input sp lim /\
    forall t, In t out -> is_sign t = true \/ Forall A (r_output t) \/ nothing_for lim input t.
Proof.
  intros E. destruct (pass_traced _ _ _ _ _ _ lower upper sort m B DR input spans out SR E) as (sp & em & caps & ind & lim & ts & T).
  exists sp, lim. split; [apply T|]. split; [apply T|]. intros t I.
  destruct (is_sign t) eqn:S.
  - left. reflexivity.
  - right. pose proof I as I0. apply in_split in I. destruct I as (a & b & Eo).
    destruct (text_piece_facts _ _ _ _ _ _ _ _ _ _ B _ _ _ _ _ _ _ _ _ _ _ _ T Eo S) as (ts1 & h & u & R & H & Et & L & O & IL & F).
    destruct (r_origin t) as [r|] eqn:Or.
    + left. destruct (is_context r) eqn:C.
      * assert (CU : forall l rest prev, l = main_entries Backward x rules \/ l = nocross_entries x rules \/ l = comp6_entries x rules ->
          ~ rule_offers compat Backward x lower l rest prev u).
        { intros l rest prev EL (full & e & Fo & _ & Eu). apply in_force_in in Fo. assert (Oe : i_origin e = Some r) by (rewrite Eu in O; symmetry; exact O).
          destruct EL as [-> |[-> | ->]].
          - apply main_entry_rule in Fo. destruct Fo as (r' & _ & O' & _ & _ & C' & _). congruence.
          - apply nocross_oriented in Fo. destruct Fo as (_ & r' & _ & O' & N). rewrite Oe in O'. injection O' as <-. destruct r; try discriminate N; discriminate C.
          - apply comp6_entry_rule in Fo. destruct Fo as (r' & _ & O' & N). rewrite Oe in O'. injection O' as <-. destruct r; try discriminate N; discriminate C. }
        assert (CF : forall a1 v, found src input a1 v -> r_origin v = Some r -> Forall A (r_output v)).
        { intros a1 v [H1|(e & _ & H1)] Ov; [|eapply context_found', H1].
          destruct H1 as (p & Hp & Fd). apply in_flat_map in Hp. destruct Hp as (r' & Hr & Hp). apply match_entry_rule in Hp. destruct Hp as (_ & M & O').
          rewrite (cpat_find_origin _ _ _ _ _ _ Fd), O' in Ov. injection Ov as ->. destruct r; discriminate. }
        assert (G : Forall A (r_output u)).
        { destruct h; cbn [best] in H.
          - destruct H as ((H & _) & _). exfalso. eapply CU, H. auto.
          - destruct H as (H & _). unfold available in H. destruct (flag_at k_comp6 lim (reached ts1)); [exfalso; eapply CU, H; auto|].
            destruct H as (_ & [(_ & _ & c & rest & _ & H)|(H & _)]).
            + exfalso. cbn [as_digit rule_sources] in H. apply assoc_in, digit_table_in in H. destruct H as (_ & _ & _ & _ & r' & ch & k & Hr & O' & _ & K).
              assert (r' = r) as -> by congruence. destruct K as [-> | ->]; discriminate C.
            + destruct H as [H|[(H & _)|(b0 & c & v & _ & H & _ & _ & _ & Eu)]]; [exfalso; eapply CU, H; auto|eapply CF; [exact H|congruence]|].
              rewrite Eu. cbn [with_offset r_output]. eapply CF; [exact H|]. rewrite Eu in O. cbn [with_offset r_origin] in O. congruence.
          - destruct F as (_ & c & rest & _ & _ & [N|(r' & _ & O' & D)]); [congruence|]. exfalso.
            assert (r' = r) as -> by congruence. destruct r; try discriminate C. destruct D as (dd & [[]|[]]). }
        rewrite Et. revert G. clear - UP. unfold shown, cased. destruct h; [| |auto];
          (destruct (flag_at k_uppercase lim (TraceSpec.position a)); [cbn [with_output r_output]; intros G; apply Forall_flat_map; eapply Forall_impl; [exact UP|exact G]|]);
          (destruct (flag_at k_titlecase lim (TraceSpec.position a)); [|auto]); cbn [with_output r_output]; intros G;
          (destruct (r_output u) as [|c l]; [auto|inversion G; subst; apply Forall_app; auto]).
      * destruct (is_match r) eqn:M.
        -- destruct r; try discriminate M.
           destruct (C56_match_backward _ _ _ _ _ lower upper sort m DR SR B input spans out t _ _ _ _ _ E I0 Or) as (Hr & _ & dots' & ME & CA).
           eapply capitals_in; [exact CA|]. pose proof (W _ Hr) as W1. unfold rule_writes in W1. cbn [is_match] in W1. eapply W1. cbn [says]. eauto.
        -- destruct (C56_backward _ _ _ _ _ lower upper sort m DR SR B input spans out t r E I0 S Or C M) as (Hr & text & SY & CA).
           eapply capitals_in; [exact CA|]. pose proof (W r Hr _ _ SY) as G. rewrite M in G. exact G.
    + destruct h.
      * destruct F as (_ & r & _ & O' & _). congruence.
      * destruct F as (r & _ & O' & _). congruence.
      * right. split; [exact Or|]. destruct F as (_ & c & rest & EL & EI & _). cbn [best] in H. destruct H as ((c' & rest' & EL' & BC) & NA & _).
        assert (c' = c /\ rest' = rest) as [-> ->] by (split; congruence).
        exists ts1, c, rest, u. split; [exact EL|]. split; [rewrite Et; exact EI|]. split; [exact BC|]. split; [rewrite Et; reflexivity|exact NA].
Qed.
Lemma undefined_rule dots : undefined_dots rules = Some dots -> In (RUndefined dots) rules.
Proof.
  intros E. unfold undefined_dots in E. revert E.
  assert (G : forall l u, fold_left (fun u r => match r with RUndefined dots => Some dots | _ => u end) l u = Some dots -> u = Some dots \/ In (RUndefined dots) l).
  { induction l as [|r l IH]; cbn [fold_left]; intros u E; [auto|]. destruct (IH _ E) as [H|H]; [|right; right; exact H].
    destruct r; auto. injection H as ->. right. left. reflexivity. }
  intros E. destruct (G rules None E) as [H|H]; [discriminate|exact H].
Qed.
Lemma no_undefined_rule : undefined_dots rules = None -> forall dots, ~ In (RUndefined dots) rules.
Proof.
  intros E dots. unfold undefined_dots in E. revert E.
  assert (G : forall l u, fold_left (fun u r => match r with RUndefined dots => Some dots | _ => u end) l u = None -> u = None /\ ~ In (RUndefined dots) l).
  { induction l as [|r l IH]; cbn [fold_left]; intros u E; [auto|]. apply IH in E. destruct E as [E N]. split; [destruct r; auto; discriminate|].
    intros [->|I]; [discriminate|exact (N I)]. }
  intros E. apply (G rules None E).
Qed.
Lemma unknown_in c u : unknown_writes A x rules -> by_character src c u -> Forall A (r_output u).
Proof.
  intros [U1 U2] H. cbn [by_character rule_sources] in H. unfold character_offers in H. 
  assert (N : character_lookup Backward x rules compat c = None) by (destruct compat; reflexivity). rewrite N in H.
  destruct (undefined_dots rules) as [dots|] eqn:U; [subst u; eapply U1, undefined_rule, U|].
  destruct H as (h & H & ->). cbn [r_output]. specialize (U2 (no_undefined_rule U)). unfold handle_undefined in H.
  revert h H. pose proof (escape_letters c) as L. revert L. generalize (escape_char c). intros s. induction s as [|y s IH]; cbn [spell]; intros L h E; [injection E as <-; constructor|].
  destruct (U2 y (L y (or_introl eq_refl))) as [Y1 Y2]. assert (L' : forall y0, In y0 s -> In y0 (lit "\x0123456789abcdef")) by (intros; apply L; right; assumption).
  destruct (defs_get (x_defs x) y) as [g|] eqn:G.
  - destruct (spell (x_defs x) s) as [t| |]; try discriminate. injection E as <-. apply Forall_app. split; [eapply Y1; reflexivity|eapply IH; auto].
  - destruct (fallback y) as [g| |] eqn:F; try discriminate. destruct (spell (x_defs x) s) as [t| |]; try discriminate. injection E as <-.
    constructor; [apply Y2; reflexivity|eapply IH; auto].
Qed.
Lemma main_out input spans out : unknown_writes A x rules -> signs_written A rules -> main_trace lower upper sort m input spans = Ok out -> Forall A (outputs out).
Proof.
  intros U SW E. destruct (piece_in input spans out E) as (sp & lim & _ & _ & P). unfold outputs. apply Forall_flat_map, Forall_forall. intros t I.
  destruct (P t I) as [S|[H|(_ & a & c & rest & u & _ & _ & H & Eo & _)]]; [|exact H|rewrite Eo; eapply unknown_in; eauto].
  apply in_split in I. destruct I as (a & b & Eo).
  destruct (C26_signs_come_from_the_table _ _ _ _ _ _ lower upper sort m B DR SR input spans out a t b E Eo S) as (_ & r & Hr & O & SD & _).
  eapply SW, SD. exact Hr.
Qed.
Lemma main_entry_says e : In e (main_entries Backward x rules) -> exists r, In r rules /\ i_origin e = Some r /\ says x r (i_from e) (i_to e).
Proof.
  intros F. unfold main_entries in F. rewrite in_app_iff, !in_flat_map in F. destruct F as [(r & Hr & F)|(r & Hr & F)]; exists r; (split; [exact Hr|]).
  - eapply (character_says Backward x rules), F. auto.
  - unfold main_entries_of in F. rewrite !in_app_iff in F. destruct F as [F|[F|F]].
    + eapply (character_says Backward x rules), F. auto.
    + eapply (indicator_says Backward), F.
    + destruct (is_nocross r); [destruct F|]. apply word_says, F.
Qed.
(** a cell that the table knows can always be used up *)
Lemma known_entry c : (exists r text, In r rules /\ defines r = true /\ says x r text [c]) ->
  exists e, In e (main_entries Backward x rules) /\ sought Backward e = [c] /\ pre_conditions e = [] /\ post_conditions e = [].
Proof.
  intros (r & text & Hr & D & SY).
  assert (CH : forall q, In q rules -> (exists ch, In (ch, [c]) (first_characters q) \/ In (ch, [c]) (other_characters Backward x rules q)) ->
    exists e, In e (main_entries Backward x rules) /\ sought Backward e = [c] /\ pre_conditions e = [] /\ post_conditions e = []).
  { clear r text Hr D SY. intros r Hr (ch & G).
    exists (mk_ins [ch] [c] None None (rule_precedence r) [] Main (Some r)). split; [|split; [reflexivity|split; reflexivity]].
    unfold main_entries, main_entries_of. rewrite in_app_iff, !in_flat_map. destruct G as [G|G]; [left|right]; exists r; (split; [exact Hr|]);
      unfold backward_only; cbn [is_backward]; rewrite ?in_app_iff; [|left]; unfold character_entries; apply in_map_iff; exists (ch, [c]); auto. }
  assert (IN : forall q, In q rules -> (is_letter_dots Backward rules [c] = false -> In (mk_ins [] [c] None None (rule_precedence q) [] Main (Some q)) (indicator_entries Backward rules q)) ->
    exists e, In e (main_entries Backward x rules) /\ sought Backward e = [c] /\ pre_conditions e = [] /\ post_conditions e = []).
  { clear r text Hr D SY. intros r Hr I. destruct (is_letter_dots Backward rules [c]) eqn:L.
    - apply existsb_exists in L. destruct L as (dots & Id & Ed). apply str_eqb_eq in Ed. subst dots. unfold letter_dots in Id. apply in_flat_map in Id. destruct Id as (q & Hq & Id).
      apply (CH q Hq). destruct q; try (destruct Id; fail); (destruct Id as [->|[]]); eexists; right; left; reflexivity.
    - exists (mk_ins [] [c] None None (rule_precedence r) [] Main (Some r)). split; [|split; [reflexivity|split; reflexivity]].
      unfold main_entries, main_entries_of. rewrite in_app_iff, !in_flat_map. right. exists r. split; [exact Hr|]. rewrite !in_app_iff. right. left. apply I. reflexivity. }
  destruct r; try discriminate D; cbn [says] in SY; destruct SY as [-> SY];
    try (subst dots; first [apply (CH _ Hr); eexists; cbn [first_characters other_characters litdigit_chars mem existsb]; first [left; left; reflexivity|right; left; reflexivity]
      |apply (IN _ Hr); intros NL; cbn [indicator_entries is_backward]; rewrite NL; left; reflexivity]).
  apply (CH _ Hr). eexists. right. cbn [other_characters]. rewrite SY. left. reflexivity.
Qed.
Lemma known_available lim input a c rest : (forall p, flag_at k_comp6 lim p = false) -> lower c = [c] -> left input a = c :: rest -> known_cell x rules c ->
  exists u, available src Backward lim input a u /\ new a u.
Proof.
  intros LC LW EL (KN & NP & NQ). destruct (known_entry c KN) as (e & Ie & SO & PR & PO).
  assert (WO : forall b, In b (main_entries Backward x rules) -> well_oriented b) by (intros b Ib; apply main_oriented in Ib; apply Ib).
  destruct (some_in_force compat (trie_ctx Backward x) Backward _ e WO Ie) as (full & b & F & Ib & RV).
  destruct RV as (R1 & R2 & R3). rewrite SO in R1. rewrite PR in R2. rewrite PO in R3.
  assert (R2' : pre_conditions b = []) by (inversion R2; auto). assert (R3' : post_conditions b = []) by (inversion R3; auto).
  assert (AP : applies lower (trie_ctx Backward x) Backward b (left input a) (previous a)).
  { exists rest. rewrite <- R1, EL. split; [constructor; [exact LW|constructor]|]. rewrite R2', R3'. split; intros ks []. }
  set (u := offer (trie_ctx Backward x) Backward full b).
  assert (BT : by_text src (left input a) (previous a) u) by (exists full, b; auto).
  assert (LU : r_length u = 1) by (unfold u, offer; cbn [resolved_new r_length]; rewrite <- R1; reflexivity).
  assert (PK : punc_ok lim (reached a) u = true).
  { pose proof (main_entry_says b Ib) as (r & Hr & O & SY). change (i_to b) with (sought Backward b) in SY. rewrite <- R1 in SY.
    unfold punc_ok, u, offer. cbn [resolved_new r_origin]. rewrite O.
    destruct r; try reflexivity; destruct SY as [_ SY]; subst dots; exfalso; [eapply NP|eapply NQ]; exact Hr. }
  assert (NW : forall v, r_length v = 1 -> new a v).
  { intros v Lv I. destruct (PropPatterns.inserted_step a _ I) as (y & _ & E & L0). unfold subset_of in E. injection E as _ _ E _. congruence. }
  destruct (flag_at k_digit lim (reached a)) eqn:FD.
  - destruct (assoc c (digit_table Backward rules)) as [v|] eqn:ED.
    + assert (DV : digit src Backward lim input a v) by (split; [reflexivity|]; split; [exact FD|]; exists c, rest; split; [exact EL|exact ED]).
      assert (LV : r_length v = 1) by (apply assoc_in, digit_table_in in ED; apply ED).
      exists v. split; [|apply NW, LV]. unfold available. rewrite LC. split; [intros _; lia|]. left. exact DV.
    + exists u. split; [|apply NW, LU]. unfold available. rewrite LC. split; [intros _; lia|]. right. split; [left; exact BT|]. split.
      * exact PK.
      * intros (v & _ & _ & c' & r' & EL' & H). assert (c' = c) as -> by congruence. cbn [as_digit rule_sources] in H. congruence.
  - exists u. split; [|apply NW, LU]. unfold available. rewrite LC. split; [intros _; lia|]. right. split; [left; exact BT|]. split.
    + exact PK.
    + intros (v & _ & FD' & _). congruence.
Qed.
(** no signs are put into them *)
Lemma position_cons a : forall t (b : list resolved), is_sign t = true -> In t (signs_put (a ++ t :: b) (TraceSpec.position a)).
Proof.
  intros t b S. unfold signs_put. assert (G : forall a q, In t (signs_from q (q + TraceSpec.position a) (a ++ t :: b))).
  { clear a. induction a as [|y a IH]; intros q; cbn [app signs_from].
    - cbn. rewrite Nat.add_0_r, Nat.eqb_refl, S. left. reflexivity.
    - apply in_or_app. right. unfold TraceSpec.position in *. cbn [map list_sum fold_right]. rewrite Nat.add_assoc. apply IH. }
  exact (G a 0).
Qed.
Lemma silent input out : (forall p, ~ in_computer_braille x rules input [] p) -> no_print x rules input -> (forall c, In c input -> lower c = [c]) ->
  main_trace lower upper sort m input [] = Ok out -> forall t, In t out -> is_sign t = false.
Proof.
  intros NC [NP CT] LW E t I. destruct (is_sign t) eqn:S; [exfalso|reflexivity]. apply in_split in I. destruct I as (a & b & Eo).
  assert (BD : boundary out (TraceSpec.position a)) by (exists a, (t :: b); auto).
  assert (ST : In t (signs_put out (TraceSpec.position a))) by (rewrite Eo; apply position_cons, S).
  rewrite (C26_signs_of_a_position _ _ _ _ _ _ lower upper sort m B DR SR input [] out E) in ST. apply in_flat_map in ST. destruct ST as (f & _ & ST).
  assert (AT : forall q c, nth_error input q = Some c -> In c input) by (intros q c; apply nth_error_In).
  assert (RC : forall q, ~ reads_as_contraction x rules lower input q).
  { intros q (c & txt & rest & Ic & Es & Em & _). destruct (CT c Ic) as (ch & I1 & I2). apply I2. 
    assert (X : forall y, In y txt -> In y input).
    { intros y Iy. rewrite <- (firstn_skipn q input), Es, !in_app_iff. auto. }
    assert (Q : txt = c); [|subst c; auto]. revert Em X. clear - LW. revert c. induction txt as [|y txt IH]; intros [|z c] Em X; try discriminate; [reflexivity|].
    cbn [map] in Em. injection Em as E1 E2. rewrite (LW y) in E1 by (apply X; left; reflexivity). f_equal; [congruence|apply IH; [exact E2|intros; apply X; right; assumption]]. }
  assert (NL : forall q, ~ some_char (nth_error input q) (a_letter x)).
  { intros q (c & Ec & k & Ik & H). destruct (NP c (AT q c Ec)) as [_ N]. rewrite (N k Ik) in H. discriminate. }
  destruct f.
  - destruct (C30_computer_braille_signs _ _ _ _ _ _ lower upper sort m B DR SR input [] out E) as (sp & M & F). destruct (F _ BD) as [F1 _]. apply F1 in ST.
    destruct ST as (s & a0 & e & _ & _ & Is & (C1 & C2 & C3 & C4) & _). apply (NC a0). apply (marked_positions x rules input [] sp M). exists s. split; [exact Is|]. split; [exact C1|lia].
  - destruct (family_signs _ _ _ _ _ _ lower upper sort m B DR SR input [] out E) as (sp & em & caps & E1 & E2 & _ & F). rewrite (F _ _ BD) in ST. cbn [source] in ST.
    destruct (marked_enriched _ _ _ _ _ _ _ B input [] sp E1) as [_ (added & -> & _ & AD)]. destruct added as [|s added].
    + cbn [app] in E2. unfold emph_precompute in E2. rewrite LocalPass.no_events in E2. cbn in E2. injection E2 as <-. destruct ST.
    + destruct (proj1 (AD s) (or_introl eq_refl)) as [W0 _]. apply (NC (sp_start s)). right. exists s. split; [exact W0|]. destruct W0 as (_ & (L & _) & _). lia.
  - destruct (C25_number_signs _ _ _ _ _ _ lower upper sort m B DR SR input [] out E) as (u & NU & F). destruct (F _ BD) as [_ F1]. apply F1 in ST.
    assert (ND : forall q, ~ at_in input q (nu_digits u)).
    { intros q (c & Ec & Ic). apply (nc_digits _ _ _ NU) in Ic. destruct (NP c (AT q c Ec)) as [N _]. congruence. }
    destruct ST as [(_ & _ & _ & _ & NS & _)|(_ & _ & _ & _ & _ & _ & _ & _ & _ & _ & NE & _)].
    + exact (ND _ NS).
    + destruct NE as (_ & (s & _ & H & _) & _). exact (ND _ H).
  - destruct (C29_letter_signs _ _ _ _ _ _ lower upper sort m B DR SR input [] out E _ BD) as [_ F1]. apply F1 in ST.
    destruct ST as (_ & _ & _ & _ & [((c & Ec & L & _) & _)|[H _]]); [apply (NL (TraceSpec.position a)); exists c; auto|exact (RC _ H)].
  - destruct (C27_capital_signs _ _ _ _ _ _ lower upper sort m B DR SR input [] out E) as (u & parts & ms & CR & _ & _ & F & MR & _). rewrite (F _ BD) in ST.
    destruct ms as [|mk ms]; [destruct ST|]. inversion MR as [|mk0 ms0 M0 _]; subst mk0 ms0. unfold mark_right in M0. destruct (from_to mk) as [o c]. destruct M0 as (_ & _ & [_ U] & _).
    unfold at_char in U. destruct (nth_error input o) as [ch'|] eqn:Ec'; [|discriminate].
    apply mem_In, (cr_upper _ _ _ CR) in U. destruct (NP ch' (AT o ch' Ec')) as [_ N]. rewrite (N CUppercase) in U; [discriminate|right; left; reflexivity].
  - apply (C29_nocontract_signs _ _ _ _ _ _ lower upper sort m B DR SR input [] out E _ BD) in ST. destruct ST as (_ & _ & _ & _ & H & _). exact (RC _ H).
Qed.
Lemma main_known input spans out : (forall p, ~ in_computer_braille x rules input spans p) ->
  Forall (fun c => lower c = [c] /\ known_cell x rules c) input -> signs_written A rules \/ (spans = [] /\ no_print x rules input) ->
  main_trace lower upper sort m input spans = Ok out -> Forall A (outputs out).
Proof.
  intros NC KN SW E. destruct (piece_in input spans out E) as (sp & lim & ES & RS & P). unfold outputs. apply Forall_flat_map, Forall_forall. intros t I.
  assert (LC : forall p, flag_at k_comp6 lim p = false).
  { intros p. destruct (flag_at k_comp6 lim p) eqn:F; [|reflexivity]. exfalso. apply (rs_comp _ _ _ _ RS) in F. destruct F as [F _].
    destruct (marked_enriched _ _ _ _ _ _ _ B input spans sp ES) as [_ M]. apply (marked_positions x rules input spans sp M) in F. exact (NC p F). }
  destruct (P t I) as [S|[H|(_ & a & c & rest & u & EL & _ & _ & _ & NA)]]; [|exact H|exfalso].
  { destruct SW as [SW|[-> NPR]].
    - pose proof I as I0. apply in_split in I0. destruct I0 as (a & b & Eo).
      destruct (C26_signs_come_from_the_table _ _ _ _ _ _ lower upper sort m B DR SR input spans out a t b E Eo S) as (_ & r & Hr & O & SD & _).
      eapply SW, SD. exact Hr.
    - rewrite (silent input out NC NPR) with (t := t) in S; [discriminate| |exact E|exact I]. rewrite Forall_forall in KN. intros c Ic. apply KN, Ic. }
  assert (Ic : In c input).
  { unfold left in EL. rewrite <- (firstn_skipn (reached a) input), EL. apply in_or_app. right. left. reflexivity. }
  rewrite Forall_forall in KN. destruct (KN c Ic) as [LW K1]. destruct (known_available lim input a c rest LC LW EL K1) as (v & V1 & V2). exact (NA v V1 V2).
Qed.
End Main.

(** ** The whole pipeline *)
Section Passes.
Variable A : char -> Prop.
Variable is_alphabetic : char -> bool.
Variable compat : bool.
Variable table : list rule.
Variable read_dictionary : str -> tres hyph.
Variable lower upper : char -> list char.
Variable sort : list event -> res (list event).
Variable x : context.
Notation rules := (filter (is_direction Backward) table).
Hypothesis DR : dictionaries_read read_dictionary.
Hypothesis SR : sort_rearranges sort.
Hypothesis EX : context_compile is_alphabetic compat rules = TOk x.
Hypothesis UP : forall c, A c -> Forall A (upper c).
Hypothesis W : text_written A x table.
Variable order1 order2 : list str -> list str.
Hypothesis O1 : permuting order1.
Hypothesis O2 : permuting order2.
Notation translate := (pipeline_translate_with lower upper sort).
Notation built := (pass_built is_alphabetic compat read_dictionary Backward table).

Lemma splits_main t1 t2 input o out : translate (t1 ++ t2) input o = Ok out ->
  exists mid, translate t1 input o = Ok mid /\ translate t2 mid o = Ok out.
Proof.
  revert input. induction t1 as [|s t1 IH]; intros input E; cbn [app pipeline_translate_with] in *; [eauto|].
  destruct (transformation_translate_with lower upper sort s input o) as [m| |]; try discriminate. cbn [bind] in *. apply IH, E.
Qed.
Lemma main_step s input o out : kind s = MainPass -> built s -> unknown_writes A x rules -> signs_written A rules ->
  transformation_translate_with lower upper sort s input o = Ok out -> Forall A out.
Proof.
  intros Kk Bs U SW. rewrite step_translate. destruct s as [st ps|m|st ps]; cbn [pass_built] in Bs.
  - destruct st; discriminate Kk.
  - destruct Bs as (x' & EX' & Bm). assert (x' = x) as -> by (rewrite EX in EX'; congruence).
    cbn [transformation_trace]. destruct (main_trace lower upper sort m input (o_emphasis o)) as [t| |] eqn:T; try discriminate. cbn [bind]. intros [= <-].
    eapply (main_out A is_alphabetic compat read_dictionary x _ lower upper sort m UP EX Bm DR SR); [| |exact U|exact SW|exact T].
    + intros r I. apply W, I.
    + intros test action kk I. apply (W _ I).
  - destruct st; discriminate Kk.
Qed.
Lemma correct_step s input o out : kind s = CorrectPass -> built s -> Forall A input ->
  transformation_translate_with lower upper sort s input o = Ok out -> Forall A out.
Proof.
  intros Kk Bs F. rewrite step_translate.
  assert (P : forall st ps y, context_compile is_alphabetic compat table = TOk y ->
    multipass_compile (filter (opcode_of CorrectPass) rules) Backward st y = TOk ps ->
    (do t <- multipass_trace lower ps st input; Ok (outputs t)) = Ok out -> Forall A out).
  { intros st ps y EY C. destruct (multipass_trace lower ps st input) as [t| |] eqn:T; try discriminate. cbn [bind]. intros [= <-].
    eapply (multipass_in A is_alphabetic compat table lower _ Backward st y ps input t EY); [|exact C|exact T|exact F].
    intros r test action I (kk & K). apply filter_In in I. destruct I as [I O]. destruct (W r I) as [_ Wr].
    destruct K as [-> |[-> |[-> | ->]]]; try discriminate O. exact Wr. }
  destruct s as [st ps|m|st ps]; cbn [pass_built] in Bs.
  - destruct Bs as (y & EY & _ & C). rewrite Kk in C. intros E. eapply P; eauto.
  - discriminate Kk.
  - destruct Bs as (y & EY & _ & C). rewrite Kk in C. intros E. eapply P; eauto.
Qed.

(** What a back-translation writes comes from the text operands of the rules, and from the
    actions of context and correct: whatever the input is. *)
Theorem C79_only_the_text_of_rules : forall t input o out, unknown_writes A x rules -> signs_written A rules ->
  pipeline_compile is_alphabetic compat read_dictionary order1 order2 table Backward = TOk t ->
  translate t input o = Ok out -> Forall A out.
Proof.
  intros t input o out U SW E T. destruct (compile_built is_alphabetic compat read_dictionary order1 order2 table Backward t O1 O2 E) as [Bt K].
  assert (R : exists t1 s t2, t = t1 ++ s :: t2 /\ kind s = MainPass /\ (t2 = [] \/ exists s2, t2 = [s2] /\ kind s2 = CorrectPass)).
  { change (pass_order Backward) with (([Pass4; Pass3; Pass2] ++ [MainPass; CorrectPass])) in K. rewrite filter_app in K.
    apply map_eq_app in K. destruct K as (t1 & t' & -> & _ & K). cbn [filter] in K. change (present table Backward MainPass) with true in K. cbn iota in K.
    destruct t' as [|s t2]; [discriminate|]. cbn [map] in K. exists t1, s, t2. split; [reflexivity|].
    assert (K1 : kind s = MainPass) by congruence. split; [exact K1|].
    destruct (present table Backward CorrectPass).
    - right. destruct t2 as [|s2 [|? ?]]; try discriminate. exists s2. split; [reflexivity|]. cbn [map] in K. congruence.
    - left. destruct t2; [reflexivity|discriminate]. }
  destruct R as (t1 & s & t2 & -> & Ks & T2). apply Forall_app in Bt. destruct Bt as [_ Bt]. inversion Bt as [|s0 t0 Bs Bt2]; subst.
  apply splits_main in T. destruct T as (mid & _ & T). cbn [pipeline_translate_with] in T.
  destruct (transformation_translate_with lower upper sort s mid o) as [text| |] eqn:Em; try discriminate. cbn [bind] in T.
  pose proof (main_step s mid o text Ks Bs U SW Em) as F.
  destruct T2 as [-> |(s2 & -> & K2)]; cbn [pipeline_translate_with] in T; [injection T as <-; exact F|].
  destruct (transformation_translate_with lower upper sort s2 text o) as [text2| |] eqn:Ec; try discriminate. cbn [bind] in T. injection T as <-.
  inversion Bt2; subst. eapply correct_step; eauto.
Qed.

(** Where the table knows all cells that come to the main pass, nothing else is written: not
    what stands for unknown cells and, if none of the cells is also print, no signs. *)
Theorem C79_known_cells_become_text : forall before m after input o cells out,
  pipeline_compile is_alphabetic compat read_dictionary order1 order2 table Backward = TOk (before ++ TPrimary m :: after) ->
  translate before input o = Ok cells ->
  (forall c, In c cells -> lower c = [c] /\ known_cell x rules c) ->
  (forall p, ~ in_computer_braille x rules cells (o_emphasis o) p) ->
  signs_written A rules \/ (o_emphasis o = [] /\ no_print x rules cells) ->
  translate (before ++ TPrimary m :: after) input o = Ok out -> Forall A out.
Proof.
  intros before m after input o cells out E TB KN NC SW T.
  destruct (compile_built is_alphabetic compat read_dictionary order1 order2 table Backward _ O1 O2 E) as [Bt K].
  apply Forall_app in Bt. destruct Bt as [_ Bt]. inversion Bt as [|s0 t0 Bs Bt2]; subst.
  apply splits_main in T. destruct T as (mid & TB' & T). assert (mid = cells) as -> by congruence. cbn [pipeline_translate_with] in T.
  destruct (transformation_translate_with lower upper sort (TPrimary m) cells o) as [text| |] eqn:Em; try discriminate. cbn [bind] in T.
  assert (F : Forall A text).
  { revert Em. rewrite step_translate. cbn [pass_built] in Bs. destruct Bs as (x' & EX' & Bm). assert (x' = x) as -> by (rewrite EX in EX'; congruence).
    cbn [transformation_trace]. destruct (main_trace lower upper sort m cells (o_emphasis o)) as [t| |] eqn:Tm; try discriminate. cbn [bind]. intros [= <-].
    eapply (main_known A is_alphabetic compat read_dictionary x _ lower upper sort m UP Bm DR SR); [| |exact NC| |exact SW|exact Tm].
    - intros r I. apply W, I.
    - intros test action kk I. apply (W _ I).
    - apply Forall_forall. exact KN. }
  assert (T2 : after = [] \/ exists s2, after = [s2] /\ kind s2 = CorrectPass).
  { change (pass_order Backward) with (([Pass4; Pass3; Pass2] ++ [MainPass; CorrectPass])) in K. rewrite filter_app, map_app in K. cbn [map kind] in K.
    assert (N2 : ~ In MainPass (filter (present table Backward) [Pass4; Pass3; Pass2])).
    { intros I. apply filter_In in I. destruct I as [[I|[I|[I|[]]]] _]; discriminate I. }
    assert (ND : NoDup (map kind before ++ MainPass :: map kind after)).
    { rewrite K, <- filter_app. apply NoDup_filter. repeat constructor; cbn [In app]; intuition discriminate. }
    revert N2 K. generalize (filter (present table Backward) [Pass4; Pass3; Pass2]). intros early N2 K.
    cbn [filter] in K. change (present table Backward MainPass) with true in K. cbn iota in K.
    assert (G : forall l1 l2 r1 r2, ~ In MainPass l1 -> ~ In MainPass r1 -> l1 ++ MainPass :: l2 = r1 ++ MainPass :: r2 -> l2 = r2).
    { clear. induction l1 as [|y l1 IH]; intros l2 [|z r1] r2 N1 N2 Q; cbn [app] in Q; [injection Q as Q2|injection Q as Q1 Q2|injection Q as Q1 Q2|injection Q as Q1 Q2].
      - exact Q2. - subst z. destruct N2. left. reflexivity. - subst y. destruct N1. left. reflexivity.
      - apply (IH _ r1); [intros I; apply N1; right; exact I|intros I; apply N2; right; exact I|exact Q2]. }
    assert (N1 : ~ In MainPass (map kind before)).
    { intros I. apply NoDup_remove_2 in ND. apply ND, in_or_app. auto. }
    specialize (G _ _ _ _ N1 N2 K). destruct (present table Backward CorrectPass).
    - right. destruct after as [|s2 [|? ?]]; try discriminate. exists s2. split; [reflexivity|]. cbn [map] in G. congruence.
    - left. destruct after; [reflexivity|discriminate]. }
  destruct T2 as [-> |(s2 & -> & K2)]; cbn [pipeline_translate_with] in T; [injection T as <-; exact F|].
  destruct (transformation_translate_with lower upper sort s2 text o) as [text2| |] eqn:Ec; try discriminate. cbn [bind] in T. injection T as <-.
  inversion Bt2; subst. eapply correct_step; eauto.
Qed.
(** With no pass2, pass3 and pass4 rules, the cells of the main pass are the input. *)
Theorem C79_known_input_becomes_text : forall t input o out,
  pipeline_compile is_alphabetic compat read_dictionary order1 order2 table Backward = TOk t ->
  (forall r k, In r rules -> k = Pass2 \/ k = Pass3 \/ k = Pass4 -> opcode_of k r = false) ->
  (forall c, In c input -> lower c = [c] /\ known_cell x rules c) ->
  (forall p, ~ in_computer_braille x rules input (o_emphasis o) p) ->
  signs_written A rules \/ (o_emphasis o = [] /\ no_print x rules input) ->
  translate t input o = Ok out -> Forall A out.
Proof.
  intros t input o out E NP KN NC SW T.
  assert (R : exists m after, t = TPrimary m :: after).
  { destruct (compile_built is_alphabetic compat read_dictionary order1 order2 table Backward t O1 O2 E) as [_ K].
    assert (PR : forall k, k = Pass2 \/ k = Pass3 \/ k = Pass4 -> present table Backward k = false).
    { intros k Hk. assert (X : existsb (opcode_of k) rules = false).
      { destruct (existsb (opcode_of k) rules) eqn:X; [|reflexivity]. apply existsb_exists in X. destruct X as (r & Hr & O). rewrite (NP r k Hr Hk) in O. discriminate. }
      destruct Hk as [-> |[-> | ->]]; exact X. }
    change (pass_order Backward) with [Pass4; Pass3; Pass2; MainPass; CorrectPass] in K. cbn [filter] in K.
    rewrite (PR Pass4), (PR Pass3), (PR Pass2) in K by auto. change (present table Backward MainPass) with true in K. cbn iota in K.
    destruct t as [|s t]; [discriminate|]. cbn [map] in K. assert (Ks : kind s = MainPass) by congruence.
    destruct s as [[] ?|m|[] ?]; try discriminate Ks. eauto. }
  destruct R as (m & after & ->).
  eapply (C79_known_cells_become_text [] m after input o input out); [exact E|reflexivity|exact KN|exact NC|exact SW|exact T].
Qed.
End Passes.
Print Assumptions C79_known_input_becomes_text.
Print Assumptions C79_only_the_text_of_rules.
Print Assumptions C79_known_cells_become_text.

(** ** Examples *)
Definition print (c : char) : Prop := (c < 0x2800)%N.
Definition ex_text : list rule :=
  ex_letters ++ [always "cd" (b 30); RLargesign (lit "ab") (b 62); RSyllable (lit "ba") (Explicit (b 60)); RBegword (lit "bd") (Explicit (bs [5; 9]%N)) K [];
                 RCapsletter (b 32) K; RBegcaps (bs [32; 32]%N); RCorrect [TString (lit "aa")] [ActString (lit "A")] K].
Definition ex_known : list char := bs [0; 1; 3; 9; 25; 50; 32]%N.
Lemma ex_text_written x : text_written print x ex_text.
Proof.
  intros r I. change (filter (is_direction Backward) ex_text) with ex_text in I.
  repeat (destruct I as [<-|I]; [split; [intros text dots SY; cbn [says is_match sign_dots] in SY |- *;
     try (destruct SY as [-> _]); try contradiction; repeat constructor|try exact Logic.I]|]); [|destruct I].
  split; [|split].
  - intros s [[= <-]|[]]. repeat constructor.
  - intros s [[=]|[]].
  - intros name c s [[=]|[]].
Qed.
Lemma ex_text_known x c : In c ex_known -> known_cell x (filter (is_direction Backward) ex_text) c.
Proof.
  change (filter (is_direction Backward) ex_text) with ex_text. intros I. split; [|split; intros text k J; repeat (destruct J as [J|J]; [discriminate J|]); destruct J].
  assert (G : forall r text, In r ex_text -> defines r = true -> says x r text [c] -> exists r text, In r ex_text /\ defines r = true /\ says x r text [c]).
  { intros r text J D SY. exists r, text. auto. }
  destruct I as [<-|[<-|[<-|[<-|[<-|[<-|[<-|[]]]]]]]].
  - apply (G (RSpace 32%N (b 0) K) [32%N]); [left; reflexivity|reflexivity|split; reflexivity].
  - apply (G (RLowercase (ch "a") (b 1) K) (lit "a")); [do 2 right; left; reflexivity|reflexivity|split; reflexivity].
  - apply (G (RLowercase (ch "b") (b 3) K) (lit "b")); [do 3 right; left; reflexivity|reflexivity|split; reflexivity].
  - apply (G (RLowercase (ch "c") (b 9) K) (lit "c")); [do 4 right; left; reflexivity|reflexivity|split; reflexivity].
  - apply (G (RLowercase (ch "d") (b 25) K) (lit "d")); [do 5 right; left; reflexivity|reflexivity|split; reflexivity].
  - apply (G (RPunctuation (ch ".") (b 50) K) (lit ".")); [do 1 right; left; reflexivity|reflexivity|split; reflexivity].
  - apply (G (RCapsletter (b 32) K) []); [unfold ex_text; apply in_or_app; right; do 4 right; left; reflexivity|reflexivity|split; reflexivity].
Qed.

Lemma ex_classes x c : context_compile ex_alpha true ex_text = TOk x -> In c ex_known ->
  cls_has (x_chars x) CLitdigit c = false /\ forall k, In k [CLetter; CUppercase; CLowercase] -> cls_has (x_chars x) k c = false.
Proof.
  intros EX I. assert (G : match context_compile ex_alpha true ex_text with
    | TOk x => forallb (fun c => forallb (fun k => negb (cls_has (x_chars x) k c)) [CLitdigit; CLetter; CUppercase; CLowercase]) ex_known
    | _ => false end = true) by (vm_compute; reflexivity).
  rewrite EX in G. rewrite forallb_forall in G. specialize (G c I). rewrite forallb_forall in G.
  assert (H : forall k, In k [CLitdigit; CLetter; CUppercase; CLowercase] -> cls_has (x_chars x) k c = false).
  { intros k Ik. specialize (G k Ik). destruct (cls_has (x_chars x) k c); [discriminate G|reflexivity]. }
  split; [apply H; left; reflexivity|]. intros k Ik. apply H. right. exact Ik.
Qed.
Lemma ex_upper_print c : print c -> Forall print (ex_upper c).
Proof. unfold print, ex_upper. intros P. constructor; [|constructor]. destruct (_ && _)%bool; lia. Qed.
(** Whatever of its known cells come to the main pass, the table gives print. *)
Lemma ex_main x table : table = ex_text -> forall before m after input o cells out,
  context_compile ex_alpha true (filter (is_direction Backward) table) = TOk x ->
  ex_pipeline Backward table = TOk (before ++ TPrimary m :: after) ->
  pipeline_translate_with ex_lower ex_upper ex_sort before input o = Ok cells ->
  (forall c, In c cells -> In c ex_known) -> o_emphasis o = [] ->
  pipeline_translate_with ex_lower ex_upper ex_sort (before ++ TPrimary m :: after) input o = Ok out -> Forall print out.
Proof.
  intros Et before m after input o cells out EX E T KN NE H.
  apply (C79_known_cells_become_text print ex_alpha true table ex_dictionary ex_lower ex_upper ex_sort x ex_dictionaries ex_rearranges EX ex_upper_print)
    with (order1 := fun l => l) (order2 := fun l => l) (before := before) (m := m) (after := after) (input := input) (o := o) (cells := cells); auto.
  - subst table. apply ex_text_written.
  - intros l. apply Permutation_refl.
  - intros l. apply Permutation_refl.
  - intros c I. split; [|subst table; apply ex_text_known, KN, I]. specialize (KN c I). repeat (destruct KN as [<-|KN]; [reflexivity|]). destruct KN.
  - rewrite NE. intros p [(s & I & _)|(s & (_ & _ & q & _ & _ & text & k & rest & I & _) & _)]; [destruct I|].
    subst table. change (filter (is_direction Backward) ex_text) with ex_text in I. repeat (destruct I as [I|I]; [discriminate I|]). destruct I.
  - right. split; [exact NE|]. split; [|subst table; change (filter (is_direction Backward) ex_text) with ex_text; intros text I; repeat (destruct I as [I|I]; [discriminate I|]); destruct I].
    intros c I. specialize (KN c I). subst table. change (filter (is_direction Backward) ex_text) with ex_text in EX. apply ex_classes; assumption.
Qed.
(** So, of every input made of these cells, the table gives print. *)
Lemma ex_input table : table = ex_text -> forall input o out, (forall c, In c input -> In c ex_known) -> o_emphasis o = [] ->
  ex_translate Backward table input o = Some (Ok out) -> Forall print out.
Proof.
  intros Et input o out KN NE H. unfold ex_translate in H. destruct (ex_pipeline Backward table) as [t| |] eqn:E; try discriminate H. injection H as H.
  assert (EX : exists x, context_compile ex_alpha true (filter (is_direction Backward) table) = TOk x).
  { subst table. eexists. vm_compute. reflexivity. }
  destruct EX as (x & EX).
  apply (C79_known_input_becomes_text print ex_alpha true table ex_dictionary ex_lower ex_upper ex_sort x ex_dictionaries ex_rearranges EX ex_upper_print)
    with (order1 := fun l => l) (order2 := fun l => l) (t := t) (input := input) (o := o); auto.
  - subst table. apply ex_text_written.
  - intros l. apply Permutation_refl.
  - intros l. apply Permutation_refl.
  - subst table. change (filter (is_direction Backward) ex_text) with ex_text. intros r k I Hk.
    repeat (destruct I as [<-|I]; [destruct Hk as [-> |[-> | ->]]; reflexivity|]). destruct I.
  - intros c I. split; [|subst table; apply ex_text_known, KN, I]. specialize (KN c I). repeat (destruct KN as [<-|KN]; [reflexivity|]). destruct KN.
  - rewrite NE. intros p [(s & I & _)|(s & (_ & _ & q & _ & _ & text & k & rest & I & _) & _)]; [destruct I|].
    subst table. change (filter (is_direction Backward) ex_text) with ex_text in I. repeat (destruct I as [I|I]; [discriminate I|]). destruct I.
  - right. split; [exact NE|]. split; [|subst table; change (filter (is_direction Backward) ex_text) with ex_text; intros text I; repeat (destruct I as [I|I]; [discriminate I|]); destruct I].
    intros c I. specialize (KN c I). subst table. change (filter (is_direction Backward) ex_text) with ex_text in EX. apply ex_classes; assumption.
Qed.
Example C79_input_example : forall input o out, (forall c, In c input -> In c ex_known) -> o_emphasis o = [] ->
  ex_translate Backward ex_text input o = Some (Ok out) -> Forall print out.
Proof. exact (ex_input ex_text eq_refl). Qed.
Example C79_example : ex_translate Backward ex_text (bs [1; 1; 3; 25; 0; 32; 3; 1; 9; 50]%N) options_default = Some (Ok (lit "Abd Bac.")) /\
  (forall c, In c (bs [1; 1; 3; 25; 0; 32; 3; 1; 9; 50]%N) -> In c ex_known) /\
  ex_translate Backward ex_text (bs [30; 0; 5; 9; 3; 62; 60]%N) options_default = Some (Ok (lit "cd bdbabba")).
Proof. split; [vm_compute; reflexivity|]. split; [|vm_compute; reflexivity]. intros c I. repeat (destruct I as [<-|I]; [vm_compute; tauto|]). destruct I. Qed.
(** That print alone comes out of every table whose rules write print is false: cells that the table
    does not know are put out, as cells. *)
Theorem C79_any_input_refuted :
  ~ forall input out, ex_translate Backward ex_text input options_default = Some (Ok out) -> Forall print out.
Proof.
  intros H. assert (E : exists out, ex_translate Backward ex_text (bs [63]%N) options_default = Some (Ok out) /\ hd_error out = Some (0x2800 + 51)%N).
  { eexists. split; vm_compute; reflexivity. }
  destruct E as (out & E & Hd). specialize (H _ _ E). destruct out as [|c out]; [discriminate|]. apply Forall_inv in H. injection Hd as ->. vm_compute in H. discriminate H.
Qed.
(** Nor is it enough that the table has a character for the cell: where a prepunc rule for the cell
    stands before it, the cell is not read but before words. *)
Theorem C79_prepunc_refuted : exists table out, In (RPunctuation (ch "(") (b 55) K) table /\
  ex_translate Backward table (b 55) options_default = Some (Ok out) /\ hd_error out = Some (0x2800 + 51)%N /\
  forall x, context_compile ex_alpha true table = TOk x -> text_written print x table.
Proof.
  exists (RPrepunc (lit "(") (b 55) K :: RPunctuation (ch "(") (b 55) K :: ex_letters). eexists. split; [right; left; reflexivity|].
  split; [vm_compute; reflexivity|]. split; [reflexivity|]. intros x _ r I. cbn in I.
  repeat (destruct I as [<-|I]; [split; [intros text dots SY; cbn [says is_match sign_dots] in SY |- *;
     try (destruct SY as [-> _]); try contradiction; repeat constructor|try exact Logic.I]|]). destruct I.
Qed.
Print Assumptions C79_any_input_refuted.
Print Assumptions C79_prepunc_refuted.
