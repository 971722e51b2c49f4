(** C71: uncontracted braille, with capital and number signs, can be read back. *)
From Coq Require Import Permutation.
From Verif Require Import Base BaseProofs RuleModel TranslationModel TranslationProofs TableModel TableProofs RegexpModel
  RegexpSpec PatternModel MatchProofs TrieModel TrieProofs PropTrie
  HyphenationModel HyphenationProofs LoopModel LoopProofs MultipassProofs PrimaryProofs PrimaryTrace CompileModel CompileSpec
  CompileProofs MainTable ConstraintModel ConstraintSpec ConstraintProofs IndicatorModel IndicatorProofs
  CapsSpec CapsProofs CapsFacts EmphSpec EmphProofs MainSpec StepProofs TraceSpec MainPass StepFacts TraceProofs SignSpec SetupSpec PropMain WordSpec WordProofs
  UndefinedSpec PropUndefined PipelineModel PipelineSpec PipelineProofs PropMainExamples PropPipeline RoundSpec RoundProofs UncontractedSpec UncontractedProofs UncontractedBack.

Section Translator.
Variable is_alphabetic : char -> bool.
Variable lower upper : char -> list char.
Variable sort : list event -> res (list event).
Variable read_dictionary : str -> tres hyph.
(** the default build *)
Notation compile := (pipeline_compile is_alphabetic true read_dictionary).
Notation translate := (pipeline_translate lower upper sort).
Notation an_order o := (forall l : list str, Permutation (o l) l).
Variable table : list rule.
Variable gc gn : char.
Hypothesis U : uncontracted table lower upper gc gn.
Hypothesis DR : dictionaries_read read_dictionary.
Hypothesis SR : sort_rearranges sort.

Lemma only_main order1 order2 d t : an_order order1 -> an_order order2 -> compile order1 order2 table d = TOk t ->
  exists m x, t = [TPrimary m] /\ context_compile is_alphabetic true table = TOk x /\ main_built is_alphabetic true read_dictionary d x table m.
Proof.
  intros O1 O2 E. destruct (compile_built is_alphabetic true read_dictionary order1 order2 table d t O1 O2 E) as [F K].
  assert (FT : filter (is_direction d) table = table).
  { clear -U. assert (G : forall l, (forall r, In r l -> In r table) -> filter (is_direction d) l = l); [|apply G; auto].
    induction l as [|r l IH]; intros S; [reflexivity|]. cbn [filter]. rewrite IH by (intros q Hq; apply S; right; exact Hq).
    assert (X : is_direction d r = true); [|rewrite X; reflexivity]. unfold is_direction.
    pose proof (un_unmarked _ _ _ _ _ U r (S r (or_introl eq_refl))) as UM. unfold unmarked in UM. destruct (rule_constraints r) as [k|]; [|reflexivity].
    destruct (UM k eq_refl) as (-> & -> & _). reflexivity. }
  assert (KM : map kind t = [MainPass]).
  { rewrite K. clear K. assert (N : forall k, k <> MainPass -> present table d k = false).
    { intros k Nk. assert (X : existsb (opcode_of k) (filter (is_direction d) table) = false); [|destruct k; [exact X|congruence|exact X|exact X|exact X]].
      destruct (existsb _ _) eqn:Ex; [|reflexivity]. apply existsb_exists in Ex. destruct Ex as (r & Hr & O). apply filter_In in Hr. destruct Hr as [Hr _].
      destruct (un_rules _ _ _ _ _ U _ Hr) as [X|[(s & X)|[(C & c0 & ->)|[(k' & ->)| ->]]]]; destruct k; try discriminate O; destruct r; try discriminate X; discriminate O. }
    destruct d; cbn [pass_order filter]; rewrite (N CorrectPass), (N Pass2), (N Pass3), (N Pass4) by discriminate; reflexivity. }
  destruct t as [|s [|s' t]]; try discriminate KM. inversion F as [|s0 l0 Bs _]. subst.
  destruct s as [st ps|m|st ps]; try discriminate KM; [|destruct st; discriminate KM]. destruct Bs as (x & EX & Bm). rewrite FT in *. exists m, x. auto.
Qed.
Lemma translate_main m input : translate [TPrimary m] input = main_translate lower upper sort m input [].
Proof. cbn. destruct (main_translate lower upper sort m input []); reflexivity. Qed.
Lemma total (mm : main_table) x d : main_built is_alphabetic true read_dictionary d x table mm -> forall input,
  exists out, main_trace lower upper sort mm input [] = Ok out.
Proof.
  intros B' input. apply (C02_main_pass_ends_without_emphasis _ _ _ _ _ _ lower upper sort mm B' DR).
  - intros p (_ & tr & k & rest & Hr & _). destruct (un_rules _ _ _ _ _ U _ Hr) as [X|[(s & X)|[(C & c0 & X)|[(k' & X)|X]]]]; discriminate X.
  - intros r nm Hr SP. destruct (un_rules _ _ _ _ _ U _ Hr) as [X|[(s & X)|[(C & c0 & X)|[(k' & X)|X]]]]; destruct SP; discriminate X.
Qed.

(** Forward: the text is spelt out. *)
Theorem C71_forward : forall order1 order2 fwd text dots, an_order order1 -> an_order order2 ->
  compile order1 order2 table Forward = TOk fwd -> spelt_out table gc gn false text dots -> translate fwd text = Ok dots.
Proof.
  intros order1 order2 fwd text dots O1 O2 E SO. destruct (only_main _ _ _ _ O1 O2 E) as (m & x & -> & EX & B).
  destruct (total m x Forward B text) as (out & Eo). rewrite translate_main. unfold main_translate. rewrite Eo. cbn [bind]. unfold outputs. f_equal.
  destruct (pass_traced _ _ _ _ _ _ lower upper sort m B DR text [] out SR Eo) as (sp & em & caps & ind & lim & ts & T).
  exact (forward_cells _ _ _ _ _ _ _ _ _ _ U EX B DR SR _ _ _ _ _ _ _ _ Eo T dots SO).
Qed.
(** Backward: a text that is readable is read from its cells. *)
Theorem C71_backward : forall order1 order2 bwd text dots, an_order order1 -> an_order order2 ->
  compile order1 order2 table Backward = TOk bwd -> spelt_out table gc gn false text dots -> readable table text -> translate bwd dots = Ok text.
Proof.
  intros order1 order2 bwd text dots O1 O2 E SO RE. destruct (only_main _ _ _ _ O1 O2 E) as (m & x & -> & EX & B).
  destruct (spelt_reads _ _ _ _ _ _ SO RE BOther) as (l & RL & <-); try discriminate; [split; discriminate|].
  destruct (total m x Backward B (map ac_cell l)) as (out & Eo). rewrite translate_main. unfold main_translate. rewrite Eo. cbn [bind]. unfold outputs. f_equal.
  exact (backward_text _ _ _ _ _ _ _ _ _ _ U EX B DR SR _ _ RL _ Eo).
Qed.
(** every text of known characters can be spelt out *)
Lemma can_be_spelt text : known_text table text -> forall after, exists dots, spelt_out table gc gn after text dots.
Proof.
  induction text as [|c text IH]; intros KT after; [exists []; constructor|].
  assert (KT' : known_text table text) by (intros c' H; apply KT; right; exact H).
  destruct (KT c (or_introl eq_refl)) as [(k & g & H)|(c' & H)].
  - destruct (IH KT' false) as (d1 & S1), (IH KT' true) as (d2 & S2). destruct k.
    + exists (g :: d1). eapply Spelt_char; eauto. discriminate.
    + destruct after; [exists (g :: d2); eapply Spelt_digit; eauto|exists (gn :: g :: d2); eapply Spelt_number; eauto].
    + exists (g :: d1). eapply Spelt_char; eauto. discriminate.
  - destruct (IH KT' false) as (d1 & S1). destruct (capital_letter _ _ _ _ _ U _ _ H) as (g & HC). exists (gc :: g :: d1). eapply Spelt_capital; eauto.
Qed.
(** The text comes back, with its capitals and its numbers. *)
Theorem C71_round_trip : forall order1 order2 order3 order4 fwd bwd text,
  an_order order1 -> an_order order2 -> an_order order3 -> an_order order4 ->
  compile order1 order2 table Forward = TOk fwd -> compile order3 order4 table Backward = TOk bwd ->
  known_text table text -> readable table text ->
  exists dots, spelt_out table gc gn false text dots /\ translate fwd text = Ok dots /\ translate bwd dots = Ok text.
Proof.
  intros order1 order2 order3 order4 fwd bwd text O1 O2 O3 O4 E1 E2 KT RE. destruct (can_be_spelt text KT false) as (dots & SO). exists dots.
  split; [exact SO|]. split; [exact (C71_forward _ _ _ _ _ O1 O2 E1 SO)|exact (C71_backward _ _ _ _ _ O3 O4 E2 SO RE)].
Qed.
(** Different texts have different braille. *)
Theorem C71_unambiguous : forall order1 order2 order3 order4 fwd bwd text text',
  an_order order1 -> an_order order2 -> an_order order3 -> an_order order4 ->
  compile order1 order2 table Forward = TOk fwd -> compile order3 order4 table Backward = TOk bwd ->
  known_text table text -> readable table text -> known_text table text' -> readable table text' ->
  translate fwd text = translate fwd text' -> text = text'.
Proof.
  intros order1 order2 order3 order4 fwd bwd text text' O1 O2 O3 O4 E1 E2 KT RE KT' RE' EQ.
  destruct (C71_round_trip _ _ _ _ _ _ text O1 O2 O3 O4 E1 E2 KT RE) as (dots & _ & F1 & B1).
  destruct (C71_round_trip _ _ _ _ _ _ text' O1 O2 O3 O4 E1 E2 KT' RE') as (dots' & _ & F2 & B2). congruence.
Qed.
End Translator.
Print Assumptions C71_forward.
Print Assumptions C71_backward.
Print Assumptions C71_round_trip.
Print Assumptions C71_unambiguous.

(** ** Examples *)
(** digits have the cells of letters, as usual; the cell of the capital sign is 32, that of
    the number sign 60 *)
Definition ex_plain : list rule :=
  [RSpace 32%N (b 0) K; RHyphen (ch "-") (b 36) K; RLowercase (ch "a") (b 1) K; RLowercase (ch "b") (b 3) K; RLetter (ch "z") (b 53) K;
   RPunctuation (ch ".") (b 50) K; RBase uppercase (ch "A") (ch "a"); RBase uppercase (ch "B") (ch "b"); RLitdigit (ch "1") (b 1) K;
   RLitdigit (ch "2") (b 3) K; RLitdigit (ch "7") (b 27) K; RCapsletter (b 32) K; RNumsign (b 60); RDisplay (ch "a") 0x2801%N K].
Definition ex_gc : char := 0x2820%N.
Definition ex_gn : char := 0x283c%N.

Definition all_cells (table : list rule) : list (role * char * char) := flat_map (fun r => match one_cell r with Some s => [s] | None => [] end) table.
Definition all_capitals (table : list rule) : list (char * char) := flat_map (fun r => match r with RBase n C c => if str_eqb n uppercase then [(C, c)] else [] | _ => [] end) table.
Lemma has_cell_in table k c g : has_cell table k c g <-> In (k, c, g) (all_cells table).
Proof.
  unfold has_cell, all_cells. rewrite in_flat_map. split; intros (r & H & E); exists r; (split; [exact H|]).
  - rewrite E. left. reflexivity.
  - destruct (one_cell r) as [s|]; [|destruct E]. destruct E as [->|[]]. reflexivity.
Qed.
Lemma capital_in table C c : capital_of table C c <-> In (C, c) (all_capitals table).
Proof.
  unfold capital_of, all_capitals. rewrite in_flat_map. split.
  - intros H. eexists. split; [exact H|]. cbn. auto.
  - intros (r & H & E). destruct r; try (destruct E; fail). destruct (str_eqb name uppercase) eqn:X; [|destruct E]. apply str_eqb_eq in X. subst name.
    destruct E as [E|[]]. injection E as -> ->. exact H.
Qed.
Lemma ordered (P : rule -> rule -> bool) : forall table, (fix f l := match l with [] => true | r :: l => (forallb (P r) l && f l)%bool end) table = true ->
  forall l1 r1 l2 r2 l3, table = l1 ++ r1 :: l2 ++ r2 :: l3 -> P r1 r2 = true.
Proof.
  induction table as [|r table IH]; intros H l1 r1 l2 r2 l3 E; [destruct l1; discriminate E|]. apply andb_prop in H. destruct H as [H1 H2].
  destruct l1 as [|y l1]; injection E as -> E; [|eapply IH; eauto]. rewrite forallb_forall in H1. apply H1. rewrite E. apply in_elt.
Qed.
Lemma ex_plain_uncontracted : uncontracted ex_plain ex_lower ex_upper ex_gc ex_gn.
Proof.
  assert (HC : forall k c g, has_cell ex_plain k c g -> In (k, c, g) (all_cells ex_plain)) by (intros; apply has_cell_in; assumption).
  assert (CC : forall C c, capital_of ex_plain C c -> In (C, c) (all_capitals ex_plain)) by (intros; apply capital_in; assumption).
  constructor.
  - intros r H. repeat (destruct H as [<-|H]; [try (left; reflexivity); right; try (left; eexists; reflexivity); right; try (left; do 2 eexists; reflexivity); right; try (left; eexists; reflexivity); right; reflexivity|]). destruct H.
  - intros r H. repeat (destruct H as [<-|H]; [intros k E; try discriminate E; injection E as <-; auto|]). destruct H.
  - exists K. unfold ex_plain. cbn [In]. tauto.
  - unfold ex_plain. cbn [In]. tauto.
  - intros k1 k2 c g1 g2 H1 H2. apply HC in H1. apply HC in H2.
    repeat (destruct H1 as [H1|H1]; [injection H1 as <- <- <-; repeat (destruct H2 as [H2|H2]; [try discriminate H2; injection H2 as <- <-; auto|]); destruct H2|]). destruct H1.
  - intros l1 r1 l2 r2 l3 k1 c1 k2 c2 g E E1 E2.
    pose proof (ordered (fun r1 r2 => match one_cell r1, one_cell r2 with
      | Some (k1, c1, g1), Some (k2, c2, g2) => (negb (N.eqb g1 g2) || N.eqb c1 c2 || match k1, k2 with ALetter, ADigit => true | _, _ => false end)%bool
      | _, _ => true end) ex_plain eq_refl l1 r1 l2 r2 l3 E) as Q. cbn beta in Q. rewrite E1, E2, N.eqb_refl in Q. cbn [negb orb] in Q.
    apply orb_prop in Q. destruct Q as [Q|Q]; [left; apply N.eqb_eq, Q|right]. destruct k1, k2; try discriminate Q. auto.
  - intros l1 C c l2 E. assert (CO : capital_of ex_plain C c) by (unfold capital_of; rewrite E; apply in_elt). apply CC in CO.
    assert (BF : In (RLowercase (ch "a") (b 1) K) l1 /\ In (RLowercase (ch "b") (b 3) K) l1).
    { unfold ex_plain in E. do 6 (destruct l1 as [|? l1]; [discriminate E|]; injection E as <- E). cbn [In]. tauto. }
    destruct BF as [BF1 BF2]. destruct CO as [CO|[CO|[]]]; injection CO as <- <-;
      (split; [first [exists (RLowercase (ch "a") (b 1) K); eexists; split; [exact BF1|reflexivity]|exists (RLowercase (ch "b") (b 3) K); eexists; split; [exact BF2|reflexivity]]|]); (split; [|split; reflexivity]);
      intros k g H; apply HC in H; repeat (destruct H as [H|H]; [discriminate H|]); destruct H.
  - discriminate.
  - intros k c. split; intros H; apply HC in H; repeat (destruct H as [H|H]; [discriminate H|]); destruct H.
  - intros g H. assert (G : In g (map N.of_nat (List.seq 0x2800 64))).
    { destruct H as [->|[->|(k & c & H)]]; [vm_compute; tauto|vm_compute; tauto|]. apply HC in H.
      repeat (destruct H as [H|H]; [injection H as _ _ <-; vm_compute; tauto|]). destruct H. }
    clear H. split; [|split].
    + clear -G. assert (Q : forallb (fun g => str_eqb (ex_lower g) [g]) (map N.of_nat (List.seq 0x2800 64)) = true) by (vm_compute; reflexivity).
      rewrite forallb_forall in Q. apply str_eqb_eq, Q, G.
    + intros k g' H. apply HC in H. assert (Q : forallb (fun g => forallb (fun s => negb (N.eqb (snd (fst s)) g)) (all_cells ex_plain)) (map N.of_nat (List.seq 0x2800 64)) = true) by (vm_compute; reflexivity).
      rewrite forallb_forall in Q. specialize (Q g G). rewrite forallb_forall in Q. specialize (Q _ H). cbn [fst snd] in Q. rewrite N.eqb_refl in Q. discriminate Q.
    + intros c H. apply CC in H. assert (Q : forallb (fun g => forallb (fun s => negb (N.eqb (fst s) g)) (all_capitals ex_plain)) (map N.of_nat (List.seq 0x2800 64)) = true) by (vm_compute; reflexivity).
      rewrite forallb_forall in Q. specialize (Q g G). rewrite forallb_forall in Q. specialize (Q _ H). cbn [fst snd] in Q. rewrite N.eqb_refl in Q. discriminate Q.
Qed.
Definition ex_words : str := lit "Ab 12-BA.71 zA".
Definition ex_cells : str := bs [32; 1; 3; 0; 60; 1; 3; 36; 32; 3; 32; 1; 50; 60; 27; 1; 0; 53; 32; 1]%N.
Lemma ex_words_known : known_text ex_plain ex_words.
Proof.
  intros c H. assert (Q : forallb (fun c => existsb (fun s => N.eqb (snd (fst s)) c) (all_cells ex_plain) || existsb (fun s => N.eqb (fst s) c) (all_capitals ex_plain))%bool ex_words = true) by (vm_compute; reflexivity).
  rewrite forallb_forall in Q. specialize (Q c H). apply orb_prop in Q. destruct Q as [Q|Q]; apply existsb_exists in Q.
  - destruct Q as ([[k c'] g] & I & E). apply N.eqb_eq in E. cbn in E. subst c'. left. exists k, g. apply has_cell_in, I.
  - destruct Q as ([C c'] & I & E). apply N.eqb_eq in E. cbn in E. subst C. right. exists c'. apply capital_in, I.
Qed.
Lemma ex_words_readable : readable ex_plain ex_words.
Proof.
  set (digit := fun c => existsb (fun s => match s with (ADigit, c', _) => N.eqb c' c | _ => false end) (all_cells ex_plain)).
  set (letter := fun c => (existsb (fun s => match s with (ALetter, c', _) => N.eqb c' c | _ => false end) (all_cells ex_plain) || existsb (fun s => N.eqb (fst s) c) (all_capitals ex_plain))%bool).
  assert (D : forall c g, has_cell ex_plain ADigit c g -> digit c = true).
  { intros c g H. apply has_cell_in in H. unfold digit. apply existsb_exists. eexists. split; [exact H|]. apply N.eqb_refl. }
  assert (L : forall c, (exists g, has_cell ex_plain ALetter c g) \/ (exists c', capital_of ex_plain c c') -> letter c = true).
  { intros c [(g & H)|(c' & H)]; unfold letter; apply orb_true_iff; [left; apply has_cell_in in H|right; apply capital_in in H]; (apply existsb_exists; eexists; split; [exact H|apply N.eqb_refl]). }
  assert (Q : (fix f l := match l with c1 :: ((c2 :: _) as t) => (negb (digit c1 && letter c2) && negb (letter c1 && digit c2) && f t)%bool | _ => true end) ex_words = true) by (vm_compute; reflexivity).
  clearbody digit letter. revert Q. generalize ex_words. intros text Q a c1 c2 b' E.
  assert (X : digit c1 = true -> letter c2 = true -> False).
  { revert text E Q. induction a as [|y a IH]; intros text -> Q H1 H2.
    - cbn in Q. rewrite H1, H2 in Q. discriminate Q.
    - cbn [app] in Q. destruct (a ++ c1 :: c2 :: b') as [|z t] eqn:Ez; [destruct a; discriminate Ez|]. apply andb_prop in Q. destruct Q as [_ Q]. exact (IH _ eq_refl Q H1 H2). }
  assert (Y : letter c1 = true -> digit c2 = true -> False).
  { revert text E Q. clear X. induction a as [|y a IH]; intros text -> Q H1 H2.
    - cbn in Q. rewrite H1, H2 in Q. rewrite andb_false_r in Q. discriminate Q.
    - cbn [app] in Q. destruct (a ++ c1 :: c2 :: b') as [|z t] eqn:Ez; [destruct a; discriminate Ez|]. apply andb_prop in Q. destruct Q as [_ Q]. exact (IH _ eq_refl Q H1 H2). }
  split.
  - intros g2 H2. split; intros z H1; apply Y; eauto.
  - intros g1 g2 H1 H2. exfalso. apply X; eauto.
Qed.
Example C71_example : ex_translate Forward ex_plain ex_words options_default = Some (Ok ex_cells) /\
  ex_translate Backward ex_plain ex_cells options_default = Some (Ok ex_words).
Proof. split; [vm_compute; reflexivity|]. vm_compute. reflexivity. Qed.
Lemma ex_plain_built : exists fwd bwd, ex_pipeline Forward ex_plain = TOk fwd /\ ex_pipeline Backward ex_plain = TOk bwd.
Proof.
  assert (G : forall d, match ex_pipeline d ex_plain with TOk _ => true | _ => false end = true) by (intros [|]; vm_compute; reflexivity).
  pose proof (G Forward) as G1. pose proof (G Backward) as G2. destruct (ex_pipeline Forward ex_plain) as [fwd| |]; try discriminate G1.
  destruct (ex_pipeline Backward ex_plain) as [bwd| |]; try discriminate G2. exists fwd, bwd. auto.
Qed.
(** the theorems apply to this table *)
Lemma ex_applies table : uncontracted table ex_lower ex_upper ex_gc ex_gn -> forall fwd bwd text, ex_pipeline Forward table = TOk fwd -> ex_pipeline Backward table = TOk bwd ->
  known_text table text -> readable table text ->
  exists dots, pipeline_translate ex_lower ex_upper ex_sort fwd text = Ok dots /\ pipeline_translate ex_lower ex_upper ex_sort bwd dots = Ok text.
Proof.
  intros UN fwd bwd text E1 E2 KT RE.
  destruct (C71_round_trip ex_alpha ex_lower ex_upper ex_sort ex_dictionary table ex_gc ex_gn UN ex_dictionaries ex_rearranges
    (fun l => l) (fun l => l) (fun l => l) (fun l => l) fwd bwd text (fun l => Permutation_refl l) (fun l => Permutation_refl l) (fun l => Permutation_refl l) (fun l => Permutation_refl l) E1 E2
    KT RE) as (dots & _ & T1 & T2). exists dots. auto.
Qed.
Example C71_example_applies : forall fwd bwd text, ex_pipeline Forward ex_plain = TOk fwd -> ex_pipeline Backward ex_plain = TOk bwd ->
  known_text ex_plain text -> readable ex_plain text ->
  exists dots, pipeline_translate ex_lower ex_upper ex_sort fwd text = Ok dots /\ pipeline_translate ex_lower ex_upper ex_sort bwd dots = Ok text.
Proof. exact (ex_applies ex_plain ex_plain_uncontracted). Qed.
Example C71_example_met : known_text ex_plain ex_words /\ readable ex_plain ex_words /\ exists fwd bwd, ex_pipeline Forward ex_plain = TOk fwd /\ ex_pipeline Backward ex_plain = TOk bwd.
Proof. split; [exact ex_words_known|]. split; [exact ex_words_readable|]. exact ex_plain_built. Qed.
(** Not every text comes back: a digit right behind a letter is read as a letter, ... *)
Theorem C71_digit_behind_letter_refuted :
  ex_translate Forward ex_plain (lit "a1") options_default = Some (Ok (bs [1; 60; 1]%N)) /\
  ex_translate Backward ex_plain (bs [1; 60; 1]%N) options_default = Some (Ok (lit "aa")).
Proof. split; [vm_compute; reflexivity|]. vm_compute. reflexivity. Qed.
(** ... and a letter with the cell of a digit right behind a digit as a digit. *)
Theorem C71_letter_behind_digit_refuted :
  ex_translate Forward ex_plain (lit "1a") options_default = Some (Ok (bs [60; 1; 1]%N)) /\
  ex_translate Backward ex_plain (bs [60; 1; 1]%N) options_default = Some (Ok (lit "11")).
Proof. split; [vm_compute; reflexivity|]. vm_compute. reflexivity. Qed.
(** The order of the rules counts: with the rules for digits first every letter with the
    cell of a digit is read as the digit. *)
Theorem C71_digits_first_refuted :
  let table := [RLitdigit (ch "1") (b 1) K; RLowercase (ch "a") (b 1) K; RCapsletter (b 32) K; RNumsign (b 60)] in
  ex_translate Forward table (lit "a") options_default = Some (Ok (b 1)) /\
  ex_translate Backward table (b 1) options_default = Some (Ok (lit "1")).
Proof. split; [vm_compute; reflexivity|]. vm_compute. reflexivity. Qed.
(** A decimal number does not come back when its digits share their cells with letters. *)
Theorem C71_decimals_refuted :
  let table := RDecpoint (ch ".") (b 40) :: ex_plain in
  ex_translate Forward table (lit "1.2") options_default = Some (Ok (bs [60; 1; 40; 3]%N)) /\
  ex_translate Backward table (bs [60; 1; 40; 3]%N) options_default = Some (Ok (lit "1.b")).
Proof. split; [vm_compute; reflexivity|]. vm_compute. reflexivity. Qed.
Print Assumptions C71_digit_behind_letter_refuted.
Print Assumptions C71_letter_behind_digit_refuted.
Print Assumptions C71_digits_first_refuted.
Print Assumptions C71_decimals_refuted.
