(** C62: tables that lose nothing. *)
From Coq Require Import Permutation.
From Verif Require Import Base BaseProofs RuleModel TranslationModel TranslationProofs TableModel TableProofs RegexpModel
  RegexpSpec PatternModel MatchProofs TrieModel TrieProofs PropTrie
  HyphenationModel HyphenationProofs LoopModel LoopProofs MultipassProofs PrimaryProofs PrimaryTrace CompileModel CompileSpec
  CompileProofs MainTable ConstraintModel ConstraintSpec ConstraintProofs IndicatorModel IndicatorProofs
  CapsSpec CapsProofs CapsFacts EmphSpec EmphProofs MainSpec StepProofs TraceSpec MainPass StepFacts TraceProofs SignSpec SetupSpec PropMain WordSpec WordProofs
  SaysSpec PropPieces UndefinedSpec PropUndefined PipelineModel PipelineSpec PipelineProofs PropMainExamples PropPipeline RoundSpec RoundProofs.

Lemma assoc_some {A} c (L : list (N * A)) u : In (c, u) L -> assoc c L <> None.
Proof.
  induction L as [|[k v] L IH]; intros H E; [destruct H|]. cbn [assoc] in E. destruct (N.eqb c k) eqn:K; [discriminate E|]. apply N.eqb_neq in K.
  destruct H as [H|H]; [injection H as H _; congruence|exact (IH H E)].
Qed.
(** ** The main pass forward *)
Section Forward.
Variable is_alphabetic : char -> bool.
Variable compat : bool.
Variable read_dictionary : str -> tres hyph.
Variable x : context.
Variable table : list rule.
Variable lower upper : char -> list char.
Variable sort : list event -> res (list event).
Variable m : main_table.
Hypothesis B : main_built is_alphabetic compat read_dictionary Forward x table m.
Hypothesis LL : lossless lower table.
Hypothesis DR : dictionaries_read read_dictionary.
Hypothesis SR : sort_rearranges sort.

Lemma looked_up c : (exists r g, In r table /\ character r = Some (c, g)) -> character_lookup Forward x table compat c <> None.
Proof.
  intros (r & g & Hr & C).
  assert (Q : exists u, In (c, u) (character_table Forward x table)).
  { unfold character_table. cbn [is_backward].
    assert (O : forall q h, In q table -> In (c, h) (other_characters Forward x table q) ->
       exists u, In (c, u) (flat_map (char_pieces first_characters) table ++ flat_map (char_pieces (other_characters Forward x table)) table)).
    { intros q h Hq Hh. exists (resolved_new [c] h 1 Main (Some q)). apply in_or_app. right. apply in_flat_map. exists q. split; [exact Hq|].
      unfold char_pieces. apply in_map_iff. exists (c, h). auto. }
    assert (F : In (c, g) (first_characters r) ->
       exists u, In (c, u) (flat_map (char_pieces first_characters) table ++ flat_map (char_pieces (other_characters Forward x table)) table)).
    { intros Hh. exists (resolved_new [c] g 1 Main (Some r)). apply in_or_app. left. apply in_flat_map. exists r. split; [exact Hr|].
      unfold char_pieces. apply in_map_iff. exists (c, g). auto. }
    destruct r; try discriminate C; cbn [character] in C; injection C as -> ->;
      try (apply (O _ g Hr); left; reflexivity); try (apply F; left; reflexivity).
    destruct (mem c (litdigit_chars Forward table)) eqn:M.
    - apply mem_In in M. cbn [litdigit_chars] in M. apply in_flat_map in M. destruct M as (q & Hq & M). destruct q; try destruct M; try contradiction.
      subst c0. apply (O _ dots Hq). left. reflexivity.
    - apply (O _ g Hr). cbn [other_characters]. rewrite M. left. reflexivity. }
  destruct Q as (u & Q). unfold character_lookup.
  assert (Q' : In (c, u) (if compat then character_table Forward x table else rev (character_table Forward x table))) by (destruct compat; [exact Q|apply in_rev in Q; exact Q]).
  exact (assoc_some _ _ _ Q').
Qed.
Lemma forward_codes text out : defined table text -> main_trace lower upper sort m text [] = Ok out ->
  Forall (is_code table) (map (fun t => (r_input t, r_output t)) out).
Proof.
  intros D E. apply Forall_forall. intros p Hp. apply in_map_iff in Hp. destruct Hp as (t & <- & I).
  destruct (r_origin t) as [r|] eqn:O.
  - assert (Hr : In r table).
    { destruct (is_sign t) eqn:S; [destruct (C56_signs _ _ _ _ _ _ lower upper sort m B DR SR text [] out t r E I S O) as (H & _); exact H|].
      apply in_split in I. destruct I as (a & b & Eo). destruct (pass_traced _ _ _ _ _ _ lower upper sort m B DR text [] out SR E) as (sp & em & caps & ind & lim & ts & T).
      destruct (text_piece_facts _ _ _ _ _ _ _ _ _ _ B _ _ _ _ _ _ _ _ _ _ _ _ T Eo S) as (ts1 & h & u & _ & _ & _ & _ & O' & _ & F). rewrite O in O'.
      destruct h; cbn in F.
      - destruct F as (_ & r' & F1 & F2 & _). congruence.
      - destruct F as (r' & F1 & F2 & _). congruence.
      - destruct F as (_ & c & rr & _ & _ & [F|(r' & F1 & F2 & _)]); congruence. }
    destruct (plain_kinds _ _ LL r Hr) as (_ & _ & _ & C & SD & _).
    destruct (C56_forward _ _ _ _ _ lower upper sort m DR SR B text [] out t r E I O C) as (_ & W).
    destruct (ll_plain _ _ LL r Hr) as [X|([tt g] & P)]; [destruct r; try discriminate X; destruct W|].
    destruct (plain_says _ x r tt g _ _ Hr P W) as [-> ->]. exists r. auto.
  - exfalso. apply in_split in I. destruct I as (a & b & Eo).
    destruct (C13_pieces_without_a_rule _ _ _ _ _ _ lower upper sort m B DR SR text [] out a t b E Eo O) as (c & Ec & _ & _ & N & _).
    apply (looked_up c); [apply D; eapply nth_error_In, Ec|exact N].
Qed.
Lemma forward_reads text out : main_trace lower upper sort m text [] = Ok out ->
  Forall2 (fun c c' => c = c' \/ lower c = [c']) text (flat_map r_input out).
Proof.
  intros E. destruct (C01_pieces_cover_the_input _ _ _ _ _ _ lower upper sort m B DR SR text [] out E) as (segs & <- & F).
  clear -F. induction F as [|s t l l' (_ & H) F IH]; cbn [concat flat_map]; [constructor|]. apply Forall2_app; auto.
Qed.
Lemma nothing_else (mm : main_table) d : main_built is_alphabetic compat read_dictionary d x table mm -> forall input,
  exists out, main_trace lower upper sort mm input [] = Ok out.
Proof.
  intros B' input. apply (C02_main_pass_ends_without_emphasis _ _ _ _ _ _ lower upper sort mm B' DR).
  - intros p (_ & tr & k & rest & Hr & _). destruct (ll_plain _ _ LL _ Hr) as [X|(pp & P)]; discriminate.
  - intros r nm Hr SP. destruct (ll_plain _ _ LL r Hr) as [X|(p & P)]; destruct SP; discriminate.
Qed.
(** characters one by one *)
Lemma one_by_one (P : char -> resolved -> Prop) text out :
  (forall a t b, out = a ++ t :: b -> r_length t = 1 /\ exists c, nth_error text (position a) = Some c /\ P c t) ->
  position out = length text -> Forall2 P text out.
Proof.
  intros H L. assert (G : forall a b, out = a ++ b -> position a = length a /\ Forall2 P (firstn (length a) text) a).
  { induction a as [|t a IH] using rev_ind; intros b E.
    - split; [reflexivity|constructor].
    - rewrite <- app_assoc in E. destruct (IH _ E) as [Pa Fa]. destruct (H a t b E) as (Lt & c & Ec & Pc).
      rewrite position_app, Pa, app_length. unfold position at 1. cbn [map list_sum fold_right length]. split; [lia|].
      rewrite Pa in Ec. rewrite Nat.add_1_r. assert (X : firstn (S (length a)) text = firstn (length a) text ++ [c]).
      { revert Ec. clear. generalize (length a). intros n. revert text. induction n as [|n IH]; intros [|y l] E; try discriminate E.
        - injection E as ->. reflexivity.
        - change (y :: firstn (S n) l = y :: firstn n l ++ [c]). f_equal. apply IH, E. }
      rewrite X. apply Forall2_app; [exact Fa|]. constructor; [exact Pc|constructor]. }
  destruct (G out []) as [Po Fo]; [rewrite app_nil_r; reflexivity|]. rewrite Po in L. rewrite L, firstn_all in Fo. exact Fo.
Qed.
Lemma forward_alphabet text dots out : alphabet table -> braille_of table text dots -> main_trace lower upper sort m text [] = Ok out ->
  flat_map r_input out = text /\ flat_map r_output out = dots.
Proof.
  intros [A U] BO E.
  assert (D : defined table text).
  { clear -BO. induction BO as [|c g r text dots Hr C BO IH]; intros y Hy; [destruct Hy|]. destruct Hy as [<-|Hy]; [eauto|auto]. }
  pose proof (forward_codes text out D E) as CO.
  assert (NE : main_entries Forward x table = []).
  { destruct (main_entries Forward x table) as [|a l] eqn:EE; [reflexivity|]. exfalso.
    assert (I : In a (main_entries Forward x table)) by (rewrite EE; left; reflexivity).
    unfold main_entries in I. rewrite in_app_iff, !in_flat_map in I. destruct I as [(r & _ & I)|(r & Hr & I)]; [destruct I|].
    unfold main_entries_of in I. cbn [backward_only is_backward app] in I. destruct (A r Hr) as [X|(p & X)]; destruct r; try discriminate X; cbn in I; destruct I. }
  assert (F2 : Forall2 (fun c t => r_input t = [c]) text out).
  { apply one_by_one; [|eapply C01_lengths_add_up; eauto]. intros a t b Eo.
    assert (S : is_sign t = false).
    { destruct (is_sign t) eqn:S; [|reflexivity]. exfalso.
      destruct (C26_signs_come_from_the_table _ _ _ _ _ _ lower upper sort m B DR SR text [] out a t b E Eo S) as (_ & r & Hr & _ & SD & _).
      destruct (plain_kinds _ _ LL r Hr) as (_ & _ & _ & _ & K & _). congruence. }
    destruct (pass_traced _ _ _ _ _ _ lower upper sort m B DR text [] out SR E) as (sp & em & caps & ind & lim & ts & T).
    destruct (text_piece_facts _ _ _ _ _ _ _ _ _ _ B _ _ _ _ _ _ _ _ _ _ _ _ T Eo S) as (ts1 & h & u & R & Bs & Et & Lt & _ & _ & F).
    assert (h = ByFallback) as ->.
    { destruct h; [| |reflexivity]; exfalso; cbn in F.
      - destruct F as (_ & r & Hr & _ & N). destruct (plain_kinds _ _ LL r Hr) as (N' & _). congruence.
      - destruct F as (r & Hr & O & _ & _ & _ & K). destruct (plain_kinds _ _ LL r Hr) as (_ & C6 & M & C & _).
        destruct Bs as (Av & _). unfold available in Av. destruct (flag_at k_comp6 lim (reached ts1)) eqn:K6.
        + destruct Av as (full & q & IF & _). apply in_force_in, comp6_entry_rule in IF. destruct IF as (r' & Hr' & _ & X).
          destruct (plain_kinds _ _ LL r' Hr') as (_ & X' & _). congruence.
        + assert (NF : forall i0 a0 v, ~ found (rule_sources compat Forward x table lower) i0 a0 v).
          { intros i0 a0 v [H|(e & _ & H)]; destruct H as (p & Hp & _); apply in_flat_map in Hp; destruct Hp as (q & Hq & Hp);
              destruct (plain_kinds _ _ LL q Hq) as (_ & _ & Mq & Cq & _).
            - apply match_entry_rule in Hp. destruct Hp as (_ & M' & _). congruence.
            - apply context_entry_rule in Hp. destruct Hp as (_ & M' & _). congruence. }
          destruct Av as (_ & [(X & _)|(Of & _)]); [discriminate|]. destruct Of as [Of|[(Of & _)|(b' & c' & v' & _ & Of & _)]];
            [|eapply NF, Of|eapply NF, Of]. destruct Of as (full & q & IF & _). apply in_force_in in IF. rewrite NE in IF. destruct IF. }
    cbn in F. destruct F as (L1 & c & rest & El & Ei & _). split; [congruence|]. exists c. split.
    - rewrite <- R. unfold left in El. revert El. clear. generalize (reached ts1). intros n. revert text. induction n as [|n IH]; intros [|y l] H; try discriminate H.
      + injection H as -> _. reflexivity.
      + cbn. apply IH. exact H.
    - rewrite Et. exact Ei. }
  clear D E NE. revert dots BO CO. induction F2 as [|c t text out Ht F IH]; intros dots BO CO.
  - inversion BO. auto.
  - inversion BO as [|c' g r text' dots' Hr C BO' E1 E2]. subst c' text'. cbn [map] in CO. inversion CO as [|p q C1 C2 E3]. subst p q.
    destruct (IH dots' BO' C2) as [I1 I2]. cbn [flat_map]. rewrite I1, I2, Ht. split; [reflexivity|]. f_equal.
    destruct C1 as (r' & Hr' & P'). destruct (A r' Hr') as [X|([c1 g1] & X)]; [destruct r'; try discriminate X; discriminate P'|].
    rewrite Ht in P'. assert (c1 = c /\ r_output t = g1) as [-> ->].
    { destruct r'; try discriminate X; cbn in P', X; injection X as -> ->; injection P' as -> ->; auto. }
    eapply U; [exact Hr'|exact Hr|exact X|exact C].
Qed.
End Forward.

Section Translator.
Variable is_alphabetic : char -> bool.
Variable lower upper : char -> list char.
Variable sort : list event -> res (list event).
Variable compat : bool.
Variable read_dictionary : str -> tres hyph.
Notation compile := (pipeline_compile is_alphabetic compat read_dictionary).
Notation translate := (pipeline_translate lower upper sort).
(** a permutation: the iteration order of a hash map *)
Notation an_order o := (forall l : list str, Permutation (o l) l).
Variable table : list rule.
Hypothesis LL : lossless lower table.
Hypothesis DR : dictionaries_read read_dictionary.
Hypothesis SR : sort_rearranges sort.

Lemma only_main order1 order2 d t : an_order order1 -> an_order order2 -> compile order1 order2 table d = TOk t ->
  exists m x, t = [TPrimary m] /\ context_compile is_alphabetic compat table = TOk x /\ main_built is_alphabetic compat read_dictionary d x table m.
Proof.
  intros O1 O2 E. destruct (compile_built is_alphabetic compat read_dictionary order1 order2 table d t O1 O2 E) as [F K].
  assert (FT : filter (is_direction d) table = table).
  { clear -LL. assert (G : forall l, (forall r, In r l -> In r table) -> filter (is_direction d) l = l); [|apply G; auto].
    induction l as [|r l IH]; intros S; [reflexivity|]. cbn [filter]. rewrite IH by (intros q Hq; apply S; right; exact Hq).
    assert (X : is_direction d r = true); [|rewrite X; reflexivity]. unfold is_direction.
    pose proof (ll_unmarked _ _ LL r (S r (or_introl eq_refl))) as U. unfold unmarked in U. destruct (rule_constraints r) as [k|]; [|reflexivity].
    destruct (U k eq_refl) as (-> & -> & _). reflexivity. }
  assert (KM : map kind t = [MainPass]).
  { rewrite K. clear K. assert (N : forall k, k <> MainPass -> present table d k = false).
    { intros k Nk. assert (X : existsb (opcode_of k) (filter (is_direction d) table) = false); [|destruct k; [exact X|congruence|exact X|exact X|exact X]].
      destruct (existsb _ _) eqn:Ex; [|reflexivity]. apply existsb_exists in Ex. destruct Ex as (r & Hr & O). apply filter_In in Hr. destruct Hr as [Hr _].
      destruct (ll_plain _ _ LL r Hr) as [Y|(p & P)]; destruct r; try discriminate; destruct k; discriminate. }
    destruct d; cbn [pass_order filter]; rewrite (N CorrectPass), (N Pass2), (N Pass3), (N Pass4) by discriminate; reflexivity. }
  destruct t as [|s [|s' t]]; try discriminate KM. inversion F as [|s0 l0 Bs _]. subst.
  destruct s as [st ps|m|st ps]; try discriminate KM; [|destruct st; discriminate KM]. destruct Bs as (x & EX & Bm). rewrite FT in *. exists m, x. auto.
Qed.
Lemma translate_main m input : translate [TPrimary m] input = main_translate lower upper sort m input [].
Proof. cbn. destruct (main_translate lower upper sort m input []); reflexivity. Qed.

(** Forward and back: the text comes back but for the case of its letters. *)
Theorem C62_round_trip : forall order1 order2 order3 order4 fwd bwd text,
  an_order order1 -> an_order order2 -> an_order order3 -> an_order order4 ->
  compile order1 order2 table Forward = TOk fwd -> compile order3 order4 table Backward = TOk bwd ->
  defined table text ->
  exists dots text', translate fwd text = Ok dots /\ translate bwd dots = Ok text' /\
    Forall2 (fun c c' => c = c' \/ lower c = [c']) text text'.
Proof.
  intros order1 order2 order3 order4 fwd bwd text O1 O2 O3 O4 E1 E2 D.
  destruct (only_main _ _ _ _ O1 O2 E1) as (mf & x & -> & EX & Bf). destruct (only_main _ _ _ _ O3 O4 E2) as (mb & x' & -> & EX' & Bb).
  rewrite EX in EX'. injection EX' as <-.
  destruct (nothing_else is_alphabetic compat read_dictionary x table lower upper sort LL DR mf _ Bf text) as (out & Eo).
  pose proof (forward_codes is_alphabetic compat read_dictionary x table lower upper sort mf Bf LL DR SR text out D Eo) as CL.
  set (l := map (fun t => (r_input t, r_output t)) out) in *.
  assert (EC : cells l = flat_map r_output out) by (unfold cells, l; clear; induction out as [|t out IH]; cbn; congruence).
  assert (ET : texts l = flat_map r_input out) by (unfold texts, l; clear; induction out as [|t out IH]; cbn; congruence).
  destruct (nothing_else is_alphabetic compat read_dictionary x table lower upper sort LL DR mb _ Bb (cells l)) as (back & Eb).
  pose proof (backward_text is_alphabetic compat read_dictionary x table lower upper sort mb EX Bb LL DR SR l back CL Eb) as BT.
  exists (cells l), (texts l). rewrite !translate_main. unfold main_translate. rewrite Eo, Eb. cbn [bind].
  split; [rewrite EC; reflexivity|]. split; [unfold outputs; rewrite BT; reflexivity|].
  rewrite ET. eapply forward_reads; eauto.
Qed.
(** A text without capitals comes back unchanged. *)
Theorem C62_round_trip_exact : forall order1 order2 order3 order4 fwd bwd text,
  an_order order1 -> an_order order2 -> an_order order3 -> an_order order4 ->
  compile order1 order2 table Forward = TOk fwd -> compile order3 order4 table Backward = TOk bwd ->
  defined table text -> (forall c, In c text -> lower c = [c]) ->
  exists dots, translate fwd text = Ok dots /\ translate bwd dots = Ok text.
Proof.
  intros order1 order2 order3 order4 fwd bwd text O1 O2 O3 O4 E1 E2 D LO.
  destruct (C62_round_trip _ _ _ _ _ _ _ O1 O2 O3 O4 E1 E2 D) as (dots & text' & T1 & T2 & F). exists dots. split; [exact T1|]. rewrite T2. f_equal.
  clear -F LO. induction F as [|c c' l l' H F IH]; [reflexivity|]. f_equal; [|apply IH; intros y Hy; apply LO; right; exact Hy].
  destruct H as [->|H]; [reflexivity|]. rewrite (LO c (or_introl eq_refl)) in H. injection H as <-. reflexivity.
Qed.
(** With a table of characters, each with one definition, text and braille are translated
    into each other character by character. *)
Theorem C62_alphabet : forall order1 order2 order3 order4 fwd bwd text dots,
  an_order order1 -> an_order order2 -> an_order order3 -> an_order order4 ->
  compile order1 order2 table Forward = TOk fwd -> compile order3 order4 table Backward = TOk bwd ->
  alphabet table -> braille_of table text dots ->
  translate fwd text = Ok dots /\ translate bwd dots = Ok text.
Proof.
  intros order1 order2 order3 order4 fwd bwd text dots O1 O2 O3 O4 E1 E2 A BO.
  destruct (only_main _ _ _ _ O1 O2 E1) as (mf & x & -> & EX & Bf). destruct (only_main _ _ _ _ O3 O4 E2) as (mb & x' & -> & EX' & Bb).
  rewrite EX in EX'. injection EX' as <-.
  destruct (nothing_else is_alphabetic compat read_dictionary x table lower upper sort LL DR mf _ Bf text) as (out & Eo).
  assert (D : defined table text).
  { clear -BO. induction BO as [|c g r text dots Hr C BO IH]; intros y Hy; [destruct Hy|]. destruct Hy as [<-|Hy]; [eauto|auto]. }
  pose proof (forward_codes is_alphabetic compat read_dictionary x table lower upper sort mf Bf LL DR SR text out D Eo) as CL.
  destruct (forward_alphabet is_alphabetic compat read_dictionary x table lower upper sort mf Bf LL DR SR text dots out A BO Eo) as [FI FO].
  set (l := map (fun t => (r_input t, r_output t)) out) in *.
  assert (EC : cells l = dots) by (rewrite <- FO; unfold cells, l; clear; induction out as [|t out IH]; cbn; congruence).
  assert (ET : texts l = text) by (rewrite <- FI; unfold texts, l; clear; induction out as [|t out IH]; cbn; congruence).
  destruct (nothing_else is_alphabetic compat read_dictionary x table lower upper sort LL DR mb _ Bb dots) as (back & Eb).
  rewrite !translate_main. unfold main_translate. rewrite Eo, Eb. cbn [bind]. split; [unfold outputs; rewrite FO; reflexivity|].
  rewrite <- EC in Eb. pose proof (backward_text is_alphabetic compat read_dictionary x table lower upper sort mb EX Bb LL DR SR l back CL Eb) as BT.
  unfold outputs. rewrite BT, ET. reflexivity.
Qed.
End Translator.
Print Assumptions C62_round_trip.
Print Assumptions C62_round_trip_exact.
Print Assumptions C62_alphabet.

(** ** Examples *)
(** a capital is the letter behind cell 32, [abc] has a sign of its own *)
Definition ex_code : list rule :=
  [RSpace 32%N (b 0) K; RLowercase (ch "a") (b 1) K; RLowercase (ch "b") (b 3) K; RUppercase (ch "A") (bs [32; 1]%N) K;
   RUppercase (ch "B") (bs [32; 3]%N) K; RLitdigit (ch "1") (bs [60; 1]%N) K; RPunctuation (ch ".") (b 50) K; always "ab" (b 12);
   RDisplay (ch "a") 0x2801%N K].
Lemma ex_code_lossless : lossless ex_lower ex_code.
Proof.
  constructor.
  - intros r H. repeat (destruct H as [<-|H]; [try (right; eexists; reflexivity); left; reflexivity|]). destruct H.
  - intros r H. repeat (destruct H as [<-|H]; [intros k [= <-]; auto|]). destruct H.
  - intros r1 r2 t1 g1 t2 g2 rest H1 H2 P1 P2 E.
    repeat (destruct H1 as [<-|H1]; [repeat (destruct H2 as [<-|H2]; [try discriminate P1; try discriminate P2; injection P1 as <- <-; injection P2 as <- <-; try discriminate E; auto|]); destruct H2|]). destruct H1.
  - intros r t g c H P I.
    repeat (destruct H as [<-|H]; [try discriminate P; injection P as <- <-; repeat (destruct I as [<-|I]; [split; [reflexivity|intros g' k X; repeat (destruct X as [X|X]; [discriminate X|]); destruct X]|]); destruct I|]). destruct H.
Qed.
Example C62_example :
  defined ex_code (lit "Ba abA1.") /\
  ex_translate Forward ex_code (lit "Ba abA1.") options_default = Some (Ok (bs [32; 3; 1; 0; 12; 32; 1; 60; 1; 50]%N)) /\
  ex_translate Backward ex_code (bs [32; 3; 1; 0; 12; 32; 1; 60; 1; 50]%N) options_default = Some (Ok (lit "Ba abA1.")).
Proof.
  split; [|split; vm_compute; reflexivity]. intros c H.
  repeat (destruct H as [<-|H]; [first
    [ do 2 eexists; split; [left; reflexivity|reflexivity] | do 2 eexists; split; [right; left; reflexivity|reflexivity]
    | do 2 eexists; split; [do 2 right; left; reflexivity|reflexivity] | do 2 eexists; split; [do 3 right; left; reflexivity|reflexivity]
    | do 2 eexists; split; [do 4 right; left; reflexivity|reflexivity] | do 2 eexists; split; [do 5 right; left; reflexivity|reflexivity]
    | do 2 eexists; split; [do 6 right; left; reflexivity|reflexivity] ]|]). destruct H.
Qed.
(** the theorems apply to this table *)
Example C62_example_applies : forall fwd bwd text, ex_pipeline Forward ex_code = TOk fwd -> ex_pipeline Backward ex_code = TOk bwd -> defined ex_code text ->
  exists dots text', pipeline_translate ex_lower ex_upper ex_sort fwd text = Ok dots /\ pipeline_translate ex_lower ex_upper ex_sort bwd dots = Ok text'.
Proof.
  intros fwd bwd text E1 E2 D.
  destruct (C62_round_trip ex_alpha ex_lower ex_upper ex_sort true ex_dictionary ex_code ex_code_lossless ex_dictionaries ex_rearranges
    _ _ _ _ fwd bwd text (fun l => Permutation_refl l) (fun l => Permutation_refl l) (fun l => Permutation_refl l) (fun l => Permutation_refl l) E1 E2 D) as (dots & text' & T1 & T2 & _).
  eauto.
Qed.
(** The case of letters is lost where a rule for several characters is used. *)
Theorem C62_case_refuted :
  ex_translate Forward ex_code (lit "AB") options_default = Some (Ok (b 12)) /\
  ex_translate Backward ex_code (b 12) options_default = Some (Ok (lit "ab")).
Proof. split; vm_compute; reflexivity. Qed.
(** Different dots for different texts are not enough. *)
Theorem C62_different_dots_refuted : exists table text dots text',
  (forall r1 r2 p1 p2, In r1 table -> In r2 table -> plain r1 = Some p1 -> plain r2 = Some p2 -> snd p1 = snd p2 -> p1 = p2) /\
  defined table text /\
  ex_translate Forward table text options_default = Some (Ok dots) /\
  ex_translate Backward table dots options_default = Some (Ok text') /\ text' <> text.
Proof.
  exists [RLowercase (ch "a") (b 1) K; RLowercase (ch "b") (b 3) K; RLowercase (ch "c") (bs [1; 3]%N) K], (lit "ab"), (bs [1; 3]%N), (lit "c").
  split.
  { intros r1 r2 p1 p2 H1 H2 P1 P2 E.
    repeat (destruct H1 as [<-|H1]; [repeat (destruct H2 as [<-|H2]; [injection P1 as <-; injection P2 as <-; try discriminate E; auto|]); destruct H2|]). destruct H1. }
  split.
  { intros c H. repeat (destruct H as [<-|H]; [first [do 2 eexists; split; [left; reflexivity|reflexivity] | do 2 eexists; split; [right; left; reflexivity|reflexivity]]|]). destruct H. }
  split; [vm_compute; reflexivity|]. split; [vm_compute; reflexivity|discriminate].
Qed.
Print Assumptions C62_case_refuted.
Print Assumptions C62_different_dots_refuted.
