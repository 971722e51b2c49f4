(** Text forms of numbers, tests, actions and patterns. *)
From Coq Require Import Strings.String.
From Coq Require Import List.
From Verif Require Import Base BaseProofs RuleModel BrailleProofs UnescapeSpec OperandSpec OperandText LineSpec DisplayModel DisplaySpec.
Local Open Scope list_scope.

(** ** Numbers *)
Lemma digits_decimal f n : (n < 2 ^ N.of_nat f)%N -> decimal (digits_of (S f) n) n.
Proof.
  revert n. induction f as [|f IH]; intros n L.
  - cbn in L. assert (n = 0)%N as -> by lia. split; [discriminate|]. split; [|reflexivity]. constructor; [split; cbn; lia|constructor].
  - remember (S f) as g. cbn [digits_of]. subst g. destruct (N.ltb_spec n 10) as [L10|G10].
    + split; [discriminate|]. split; [constructor; [split; lia|constructor]|]. cbn [fold_left]. lia.
    + assert (Q : (n / 10 < 2 ^ N.of_nat f)%N).
      { rewrite Nat2N.inj_succ, N.pow_succ_r' in L. apply N.div_lt_upper_bound; [discriminate|]. eapply N.lt_le_trans; [exact L|]. apply N.mul_le_mono_r. discriminate. }
      destruct (IH _ Q) as (A & B & C). assert (M : (n mod 10 < 10)%N) by (apply N.mod_lt; discriminate). split; [|split].
      * destruct (digits_of (S f) (n / 10)); discriminate.
      * apply Forall_app. split; [exact B|]. constructor; [|constructor]. set (m := (n mod 10)%N) in *; clearbody m; unfold digit10, char; clear -M; split; lia.
      * rewrite fold_left_app, <- C. cbn [fold_left]. assert (D : (n = 10 * (n / 10) + n mod 10)%N) by (apply N.div_mod; discriminate). set (m := (n mod 10)%N) in *; set (q := (n / 10)%N) in *; clearbody m q; unfold char in *; clear -D; lia.
Qed.
Lemma show_decimal n : decimal (show_number n) n.
Proof. apply digits_decimal. destruct n as [|p]; [reflexivity|]. cbn [N.size_nat].
  induction p as [p IH|p IH|]; cbn [Pos.size_nat]; rewrite ?Nat2N.inj_succ, ?N.pow_succ_r'; lia.
Qed.
Lemma shown_number n rest : (n <= 255)%N -> ~ begins digit10 rest -> number (show_number n) n rest.
Proof. intros L B. split; [apply show_decimal|]. auto. Qed.
Lemma number_small s n rest : number s n rest -> (n <= 255)%N.
Proof. intros (_ & L & _). exact L. Qed.

(** ** Tests *)
(** what may follow a test: nothing, another test or a bracket *)
Definition safe (rest : str) : Prop := forall c r, rest = c :: r -> In c (lit "_#""@$%![]`~").
Lemma safe_nil : safe [].
Proof. intros c r H. discriminate H. Qed.
Lemma safe_not (P : char -> Prop) rest : safe rest -> (forall c, In c (lit "_#""@$%![]`~") -> ~ P c) -> ~ begins P rest.
Proof. intros S0 H (c & r & E & Pc). exact (H c (S0 c r E) Pc). Qed.
Ltac each_char := intros c I; vm_compute in I; repeat (destruct I as [<-|I]); [..|destruct I].
Lemma safe_digit rest : safe rest -> ~ begins digit10 rest.
Proof. intros H. apply (safe_not _ _ H). each_char; intros [A B]; vm_compute in A, B; congruence. Qed.
Lemma safe_latin rest : safe rest -> ~ begins latin rest.
Proof. intros H. apply (safe_not _ _ H). each_char; intros [[A B]|[A B]]; vm_compute in A, B; congruence. Qed.
Lemma safe_letter rest : safe rest -> ~ begins (fun c => exists a, test_letter c a) rest.
Proof.
  intros H. apply (safe_not _ _ H). each_char; intros (a & L); vm_compute in L;
    repeat (destruct L as [L|L]; [discriminate L|]); destruct L.
Qed.
Lemma safe_quantifier rest : safe rest -> ~ begins (fun c => is "." c \/ digit10 c) rest.
Proof. intros H. apply (safe_not _ _ H). each_char; intros [A|[A B]]; vm_compute in A; try vm_compute in B; congruence. Qed.
Lemma safe_dash rest : safe rest -> ~ begins (is "-") rest.
Proof. intros H. apply (safe_not _ _ H). each_char; intros A; vm_compute in A; congruence. Qed.
Lemma digits_begin n rest : exists c r, show_number n ++ rest = c :: r /\ digit10 c.
Proof.
  destruct (show_decimal n) as (A & B & _). destruct (show_number n) as [|c r]; [destruct (A eq_refl)|].
  exists c, (r ++ rest). split; [reflexivity|]. inversion B; assumption.
Qed.
Lemma show_letter c a : test_letter c a -> show_attribute a = Ok [c].
Proof. intros L. unfold test_letter in L. cbn [In] in L. repeat (destruct L as [[= <- <-]|L]; [reflexivity|]). destruct L. Qed.
Lemma show_letters s l : Forall2 test_letter s l -> show_each show_attribute l = Ok s.
Proof. induction 1 as [|c a s l L _ IH]; [reflexivity|]. cbn [show_each]. rewrite (show_letter _ _ L), IH. reflexivity. Qed.
Lemma quantifier_shown s q rest rest' : quantifier_text s q rest -> safe rest' ->
  quantifier_text (show_quantifier q) q rest' /\
  forall P : char -> Prop, (forall c, is "." c \/ digit10 c -> ~ P c) -> ~ begins P rest' -> ~ begins P (show_quantifier q ++ rest').
Proof.
  intros Q H. inversion Q; subst; cbn [show_quantifier].
  - split; [constructor; apply safe_quantifier, H|]. intros P _ N. exact N.
  - split; [constructor|]. intros P N _. change (~ begins P (46%N :: rest')). rewrite begins_cons. apply N. left. reflexivity.
  - split.
    + constructor; [apply shown_number; [eapply number_small; eassumption|apply safe_digit, H]|apply safe_dash, H].
    + intros P N _. destruct (digits_begin n rest') as (c & r & -> & D). rewrite begins_cons. auto.
  - split.
    + constructor; [apply shown_number; [eapply number_small; eassumption|apply begins_nil]|apply shown_number; [eapply number_small; eassumption|apply safe_digit, H]|assumption].
    + intros P N _. rewrite <- app_assoc. destruct (digits_begin n ((lit "-" ++ show_number m) ++ rest')) as (c & r & -> & D). rewrite begins_cons. auto.
Qed.
Lemma plain_quoted s : ~ In (ch """") s -> ~ In (ch "\") s -> quoted_text s s.
Proof.
  induction s as [|c s IH]; intros A B; [constructor|]. constructor.
  - intros ->. apply A. left. reflexivity.
  - intros ->. apply B. left. reflexivity.
  - apply IH; intros I; [apply A|apply B]; right; exact I.
Qed.

(** the inner loop of a bracket *)
Lemma show_replace l : show_test (TReplace l) = bind (show_tests l) (fun s => Ok (lit "[" ++ s ++ lit "]")).
Proof.
  cbn [show_test]. unfold show_tests. f_equal.
  induction l as [|t l IH]; [reflexivity|]. cbn [show_each]. rewrite <- IH. reflexivity.
Qed.

Lemma tests_are_shown :
  (forall s t rest, test_text s t rest -> exists u, show_test t = Ok u /\ safe u /\ u <> [] /\ test_shown t u /\
     (plain_test t -> forall rest', safe rest' -> test_text u t rest')) /\
  (forall s l rest, tests_text s l rest -> exists u, show_tests l = Ok u /\ safe u /\ tests_shown l u /\
     (Forall plain_test l -> forall rest', safe rest' -> tests_text u l rest')).
Proof.
  assert (SF : forall t u, safe u -> u <> [] -> simple t -> show_test t = Ok u ->
     (forall rest', safe rest' -> test_text u t rest') ->
     exists u, show_test t = Ok u /\ safe u /\ u <> [] /\ test_shown t u /\ (plain_test t -> forall rest', safe rest' -> test_text u t rest')).
  { intros t u A B S0 E H. exists u. split; [exact E|]. split; [exact A|]. split; [exact B|]. split; [|auto].
    apply sh_simple; [exact S0|]. apply H, safe_nil. }
  assert (first : forall c s, In c (lit "_#""@$%![]`~") -> safe (c :: s)) by (intros c s I c' r [= <- _]; exact I).
  apply test_tests_ind.
  - intros rest B. apply (SF _ (lit "_" ++ show_number 1)); [apply first; vm_compute; auto|discriminate|exact Logic.I|reflexivity|].
    intros rest' H. constructor. apply shown_number; [lia|apply safe_digit, H].
  - intros s n rest Nm. apply (SF _ (lit "_" ++ show_number n)); [apply first; vm_compute; auto|discriminate|exact Logic.I|reflexivity|].
    intros rest' H. constructor. apply shown_number; [eapply number_small, Nm|apply safe_digit, H].
  - intros s v s' op s'' x rest Nv O Nx.
    apply (SF _ (lit "#" ++ show_number v ++ show_operator op ++ show_number x)); [apply first; vm_compute; auto|discriminate|exact Logic.I|reflexivity|].
    intros rest' H. apply tt_variable.
    + apply shown_number; [eapply number_small, Nv|apply begins_nil].
    + destruct (digits_begin x rest') as (c & r & E & D).
      destruct op; constructor; rewrite E, begins_cons; intros <-; destruct D as [D1 D2]; vm_compute in D1, D2; congruence.
    + apply shown_number; [eapply number_small, Nx|apply safe_digit, H].
  - intros s t rest Q. exists (lit """" ++ t ++ lit """"). split; [reflexivity|]. split; [apply first; vm_compute; auto|]. split; [discriminate|].
    split; [constructor|]. intros P rest' H. inversion P; subst; [|contradiction]. constructor. apply plain_quoted; assumption.
  - intros s cells rest Sp _. exists (lit "@" ++ cells). split; [reflexivity|]. split; [apply first; vm_compute; auto 20|]. split; [discriminate|].
    split; [constructor|]. intros P. inversion P; subst. contradiction.
  - intros s l s' q rest Ns Ls Q _.
    apply (SF _ (lit "$" ++ s ++ show_quantifier q)); [apply first; vm_compute; auto 20|discriminate|exact Logic.I|cbn [show_test]; rewrite (show_letters _ _ Ls); reflexivity|].
    intros rest' H. destruct (quantifier_shown _ _ _ _ Q H) as [A B]. constructor; [exact Ns|exact Ls|exact A|].
    apply B; [|apply safe_letter, H]. intros c [<-|D] (a & L); unfold test_letter in L; cbn [In] in L.
    + repeat (destruct L as [L|L]; [discriminate L|]); destruct L.
    + repeat (destruct L as [L|L]; [injection L as <- _; destruct D as [D1 D2]; vm_compute in D1, D2; congruence|]); destruct L.
  - intros s s' q rest Ns Ls Q _.
    apply (SF _ (lit "%" ++ s ++ show_quantifier q)); [apply first; vm_compute; auto 20|discriminate|exact Logic.I|reflexivity|].
    intros rest' H. destruct (quantifier_shown _ _ _ _ Q H) as [A B]. constructor; [exact Ns|exact Ls|exact A|].
    apply B; [|apply safe_latin, H]. intros c [<-|[D1 D2]] [[L1 L2]|[L1 L2]]; try (vm_compute in L1, L2; congruence); unfold char in *; lia.
  - intros c rest L. apply (SF _ (lit "%" ++ [c])); [apply first; vm_compute; auto 20|discriminate|exact Logic.I|reflexivity|].
    intros rest' _. constructor. exact L.
  - intros s t rest _ (u & E & A & B & C & D) Ng. exists (lit "!" ++ u). split; [cbn [show_test]; rewrite E; reflexivity|].
    split; [apply first; vm_compute; auto 20|]. split; [discriminate|]. split; [constructor; exact C|].
    intros P rest' H. constructor; [|exact Ng]. inversion P; subst; [contradiction|auto].
  - intros s l rest _ (u & E & A & C & D). exists (lit "[" ++ u ++ lit "]"). split; [rewrite show_replace, E; reflexivity|].
    split; [apply first; vm_compute; auto 20|]. split; [discriminate|]. split; [constructor; exact C|].
    intros P rest' H. constructor. inversion P; subst; [contradiction|]. apply D; [assumption|]. apply first. vm_compute. auto 20.
  - intros rest. apply (SF _ (lit "`")); [apply first; vm_compute; auto 20|discriminate|exact Logic.I|reflexivity|constructor].
  - intros rest. apply (SF _ (lit "~")); [apply first; vm_compute; auto 20|discriminate|exact Logic.I|reflexivity|constructor].
  - intros rest. exists []. split; [reflexivity|]. split; [apply safe_nil|]. split; constructor.
  - intros s t s' l rest _ (u & E & A & B & C & D) _ (u' & E' & A' & C' & D').
    exists (u ++ u'). split; [unfold show_tests; cbn [show_each]; unfold show_tests in E'; rewrite E, E'; reflexivity|].
    split; [destruct u as [|c u]; [destruct (B eq_refl)|]; intros c' r [= <- _]; exact (A c u eq_refl)|].
    split; [constructor; assumption|]. intros P rest' H. inversion P; subst. constructor; [|auto]. apply D; [assumption|].
    destruct u' as [|c u']; [exact H|]. intros c' r [= <- _]. exact (A' c u' eq_refl).
Qed.

(** ** Actions *)
Lemma actions_are_shown s l rest : actions_text s l rest ->
  exists ws, show_actions l = concat ws /\ Forall2 action_shown l ws.
Proof.
  induction 1 as [rest|s a s' l rest A _ (ws & E & F)]; [exists []; split; [reflexivity|constructor]|].
  exists (show_action a :: ws). split; [unfold show_actions in *; cbn [flat_map concat]; rewrite E; reflexivity|]. constructor; [|exact F].
  inversion A; subst; cbn [show_action]; try constructor; try discriminate; try constructor; auto using shown_number, begins_nil.
  all: apply shown_number; [eapply number_small; eassumption|apply begins_nil].
Qed.

(** ** Patterns *)
Lemma show_group l : show_pattern (PGroup l) = bind (show_patterns l) (fun s => Ok (lit "(" ++ s ++ lit ")")).
Proof.
  cbn [show_pattern]. unfold show_patterns. f_equal.
  induction l as [|t l IH]; [reflexivity|]. cbn [show_each]. rewrite <- IH. reflexivity.
Qed.
Lemma show_either l r : show_pattern (PEither l r) =
  bind (show_patterns l) (fun s => bind (show_patterns r) (fun t => Ok (s ++ lit "|" ++ t))).
Proof.
  cbn [show_pattern]. unfold show_patterns.
  assert (A : forall l0, (fix go (l0 : list pattern) : res str :=
    match l0 with [] => Ok [] | p :: r0 => do s <- show_pattern p; do u <- go r0; Ok (s ++ u) end) l0 = show_each show_pattern l0).
  { induction l0 as [|t l0 IH]; [reflexivity|]. cbn [show_each]. rewrite <- IH. reflexivity. }
  rewrite !A. reflexivity.
Qed.
(** first characters that stand for the same kind of text *)
Definition opener (c : char) : Prop := In c (lit ".^$%").
Definition kin (c c' : char) : Prop := c = c' \/ opener c /\ opener c'.
Definition alike (r r' : str) : Prop :=
  match r, r' with [], [] => True | c :: _, c' :: _ => kin c c' | _, _ => False end.
Lemma alike_app s s' r r' : alike s s' -> s <> [] -> alike (s ++ r) (s' ++ r').
Proof. destruct s, s'; cbn; try congruence; tauto. Qed.
Lemma alike_not (P : char -> Prop) r r' : alike r r' -> (forall c, opener c -> ~ P c) -> ~ begins P r -> ~ begins P r'.
Proof.
  intros A O N (c' & s' & -> & Pc). destruct r as [|c r]; [destruct A|]. destruct A as [->|[_ A]]; [|exact (O _ A Pc)].
  apply N. exists c', r. auto.
Qed.
Lemma show_cons p l s u : show_pattern p = Ok s -> show_patterns l = Ok u -> show_patterns (p :: l) = Ok (s ++ u).
Proof. intros A B. unfold show_patterns in *. cbn [show_each]. rewrite A, B. reflexivity. Qed.
Lemma alike_refl c r r' : alike (c :: r) (c :: r').
Proof. left. reflexivity. Qed.
Lemma alike_openers c c' r r' : opener c -> opener c' -> alike (c :: r) (c' :: r').
Proof. right. auto. Qed.
Lemma plain_set cs : ~ In (ch "]") cs -> ~ In (ch "\") cs -> set_text cs cs.
Proof.
  induction cs as [|c s IH]; intros A B; [constructor|]. constructor.
  - intros ->. apply A. left. reflexivity.
  - intros ->. apply B. left. reflexivity.
  - apply IH; intros I; [apply A|apply B]; right; exact I.
Qed.
Lemma opener_special c : opener c -> ~ ~ In c special.
Proof. unfold opener. intros I N. apply N. vm_compute in *. tauto. Qed.
Lemma opener_quantifier c : opener c -> ~ In c (lit "?*+").
Proof. unfold opener. intros I J. vm_compute in I, J. repeat (destruct I as [<-|I]; [repeat (destruct J as [J|J]; [discriminate J|]); destruct J|]). destruct I. Qed.
Lemma opener_bar c : opener c -> ~ In c (lit "|)").
Proof. unfold opener. intros I J. vm_compute in I, J. repeat (destruct I as [<-|I]; [repeat (destruct J as [J|J]; [discriminate J|]); destruct J|]). destruct I. Qed.
Lemma alike_stops r r' : alike r r' -> ~ begins (fun c => ~ In c (lit "|)")) r -> ~ begins (fun c => ~ In c (lit "|)")) r'.
Proof.
  intros A N (c' & s' & -> & Pc). destruct r as [|c r]; [destruct A|].
  apply N. exists c, r. split; [reflexivity|]. destruct A as [->|[A _]]; [exact Pc|]. apply opener_bar, A.
Qed.

Lemma patterns_are_shown sd :
  (forall s p rest, inner_text sd s p rest -> plain_pattern p -> exists u, show_pattern p = Ok u /\ alike s u /\ s <> [] /\ u <> [] /\
     forall rest', alike rest rest' -> inner_text sd u p rest') /\
  (forall s p rest, pattern_text sd s p rest -> plain_pattern p -> exists u, show_pattern p = Ok u /\ alike s u /\ s <> [] /\ u <> [] /\
     forall rest', alike rest rest' -> pattern_text sd u p rest') /\
  (forall s l rest, sequence_text sd s l rest -> Forall plain_pattern l -> exists u, show_patterns l = Ok u /\ alike s u /\ s <> [] /\ u <> [] /\
     forall rest', alike rest rest' -> sequence_text sd u l rest') /\
  (forall s l rest, alternatives_text sd s l rest -> Forall plain_pattern l -> exists u, show_patterns l = Ok u /\ alike s u /\ s <> [] /\ u <> [] /\
     forall rest', alike rest rest' -> alternatives_text sd u l rest').
Proof.
  assert (OP : forall c, In c (lit ".^$%") -> opener c) by auto.
  assert (BD : forall s rest, (exists c r, s = c :: r /\ opener c) ->
     exists u, show_pattern (PBoundary sd) = Ok u /\ alike s u /\ s <> [] /\ u <> [] /\
       forall rest', alike rest rest' -> inner_text sd u (PBoundary sd) rest').
  { intros s rest (c & r & -> & O). exists (match sd with SPre => lit "^" | SPost => lit "$" end).
    split; [destruct sd; reflexivity|]. split; [destruct sd; apply alike_openers; [exact O|apply OP; vm_compute; auto|exact O|apply OP; vm_compute; auto]|].
    split; [discriminate|]. split; [destruct sd; discriminate|]. intros rest' _. destruct sd; constructor. }
  apply patterns_ind.
  - intros rest _. exists (lit "."). split; [reflexivity|]. split; [apply alike_refl|]. split; [discriminate|]. split; [discriminate|]. constructor.
  - intros rest _. apply (BD _ rest). exists 94%N, []. split; [reflexivity|]. apply OP; vm_compute; auto.
  - intros rest _. apply (BD _ rest). exists 36%N, []. split; [reflexivity|]. apply OP; vm_compute; auto.
  - intros c a p rest M O P. destruct O; [inversion P| |inversion P].
    apply (BD _ rest). exists 37%N, [c]. split; [reflexivity|]. apply OP; vm_compute; auto.
  - intros s l p rest Ns F O P. destruct O; [inversion P| |inversion P].
    apply (BD _ rest). exists 37%N. eexists. split; [reflexivity|]. apply OP; vm_compute; auto.
  - intros s l rest Nl St P. exists (lit "[" ++ l ++ lit "]"). split; [reflexivity|]. split; [apply alike_refl|]. split; [discriminate|]. split; [discriminate|].
    intros rest' _. inversion P; subst. constructor; [exact Nl|apply plain_set; assumption].
  - intros s l rest _ IH P. inversion P; subst. destruct (IH ltac:(assumption)) as (u & E & A & B & C & D).
    exists (lit "(" ++ u ++ lit ")"). split; [rewrite show_group, E; reflexivity|]. split; [apply alike_refl|]. split; [discriminate|]. split; [discriminate|].
    intros rest' _. constructor. apply D, alike_refl.
  - intros s p rest _ IH Ng P. inversion P; subst. destruct (IH ltac:(assumption)) as (u & E & A & B & C & D).
    exists (lit "!" ++ u). split; [cbn [show_pattern]; rewrite E; reflexivity|]. split; [apply alike_refl|]. split; [discriminate|]. split; [discriminate|].
    intros rest' Al. constructor; [apply D, Al|exact Ng].
  - intros s rest Ns F N P. exists s. split; [reflexivity|]. split; [destruct s; [destruct (Ns eq_refl)|apply alike_refl]|]. split; [exact Ns|]. split; [exact Ns|].
    intros rest' Al. constructor; [exact Ns|exact F|]. eapply alike_not; [exact Al| |exact N]. intros c O. apply opener_special, O.
  - intros s p rest _ IH N P. destruct (IH P) as (u & E & A & B & C & D). exists u. split; [exact E|]. split; [exact A|]. split; [exact B|]. split; [exact C|].
    intros rest' Al. constructor; [apply D, Al|]. eapply alike_not; [exact Al| |exact N]. intros c O. apply opener_quantifier, O.
  - intros s p rest _ IH P. inversion P; subst. destruct (IH ltac:(assumption)) as (u & E & A & B & C & D).
    exists (u ++ lit "?"). split; [cbn [show_pattern]; rewrite E; reflexivity|]. split; [apply alike_app; assumption|]. split; [destruct s; discriminate|]. split; [destruct u; discriminate|].
    intros rest' Al. apply pt_optional. apply D, alike_refl.
  - intros s p rest _ IH P. inversion P; subst. destruct (IH ltac:(assumption)) as (u & E & A & B & C & D).
    exists (u ++ lit "*"). split; [cbn [show_pattern]; rewrite E; reflexivity|]. split; [apply alike_app; assumption|]. split; [destruct s; discriminate|]. split; [destruct u; discriminate|].
    intros rest' Al. apply pt_many. apply D, alike_refl.
  - intros s p rest _ IH P. inversion P; subst. destruct (IH ltac:(assumption)) as (u & E & A & B & C & D).
    exists (u ++ lit "+"). split; [cbn [show_pattern]; rewrite E; reflexivity|]. split; [apply alike_app; assumption|]. split; [destruct s; discriminate|]. split; [destruct u; discriminate|].
    intros rest' Al. apply pt_more. apply D, alike_refl.
  - intros s p rest _ IH P. inversion P as [|? ? P1 P2]; subst. destruct (IH P1) as (u & E & A & B & C & D).
    exists u. split; [rewrite <- (app_nil_r u); apply show_cons; [exact E|reflexivity]|]. split; [exact A|]. split; [exact B|]. split; [exact C|].
    intros rest' Al. apply sq_one, D, Al.
  - intros s p s' l rest _ IH _ IH' P. inversion P as [|? ? P1 P2]; subst. destruct (IH P1) as (u & E & A & B & C & D). destruct (IH' P2) as (u' & E' & A' & B' & C' & D').
    exists (u ++ u'). split; [apply show_cons; assumption|]. split; [apply alike_app; assumption|]. split; [destruct s; [congruence|discriminate]|]. split; [destruct u; [congruence|discriminate]|].
    intros rest' Al. apply sq_more; [|apply D', Al]. apply D, alike_app; assumption.
  - intros s l rest _ IH N P. destruct (IH P) as (u & E & A & B & C & D). exists u. split; [exact E|]. split; [exact A|]. split; [exact B|]. split; [exact C|].
    intros rest' Al. apply al_one; [apply D, Al|]. eapply alike_stops; eassumption.
  - intros s l s' l' rest _ IH _ IH' N P. inversion P as [|? ? P1 _]; subst. inversion P1; subst.
    destruct (IH ltac:(assumption)) as (u & E & A & B & C & D). destruct (IH' ltac:(assumption)) as (u' & E' & A' & B' & C' & D').
    exists (u ++ lit "|" ++ u'). split; [rewrite <- (app_nil_r (u ++ _)); apply show_cons; [rewrite show_either, E, E'; reflexivity|reflexivity]|].
    split; [apply alike_app; assumption|]. split; [destruct s; [congruence|discriminate]|]. split; [destruct u; [congruence|discriminate]|].
    intros rest' Al. apply al_more; [|apply D', Al|eapply alike_stops; eassumption]. apply D, alike_refl.
Qed.
Lemma operand_is_shown sd s l : operand_text sd s l -> Forall plain_pattern l -> exists u, show_patterns l = Ok u /\ operand_text sd u l.
Proof.
  intros T P. destruct T as [|s|s l T N].
  - exists []. split; [reflexivity|constructor].
  - exists (lit "-"). split; [reflexivity|]. apply (ot_hyphen sd []).
  - destruct (proj2 (proj2 (proj2 (patterns_are_shown sd))) _ _ _ T P) as (u & E & A & B & C & D).
    exists u. split; [exact E|]. constructor; [apply D; exact Logic.I|].
    intros (c0 & r & -> & <-). apply N. destruct s as [|c s]; [destruct A|]. destruct A as [->|[_ A]].
    + exists (ch "-"), s. split; reflexivity.
    + vm_compute in A. repeat (destruct A as [A|A]; [discriminate A|]). destruct A.
Qed.
(** every pattern that can be written has a text form *)
Lemma attributes_show l : Forall (fun a => forall n, a <> AByOrder n) l -> exists u, show_each show_attribute l = Ok u.
Proof.
  induction 1 as [|a l N _ (u & E)]; [exists []; reflexivity|]. cbn [show_each]. rewrite E.
  destruct a; try (eexists; reflexivity). destruct (N n eq_refl).
Qed.
Lemma match_letter_order c a : match_letter c a -> forall n, a <> AByOrder n.
Proof. intros [L|[_ ->]] n; [|discriminate]. cbn [In] in L. repeat (destruct L as [[= _ <-]|L]; [discriminate|]). destruct L. Qed.
Lemma match_letters_order s l : Forall2 match_letter s l -> Forall (fun a => forall n, a <> AByOrder n) l.
Proof. induction 1 as [|c a s l M _ IH]; constructor; [eapply match_letter_order, M|exact IH]. Qed.
Lemma one_of_shows sd l p : one_of sd l p -> Forall (fun a => forall n, a <> AByOrder n) l -> exists u, show_pattern p = Ok u.
Proof.
  intros O F. destruct O as [l N|l N H|l others I N E].
  - apply attributes_show, F.
  - destruct sd; eexists; reflexivity.
  - assert (F' : Forall (fun a => forall n, a <> AByOrder n) others).
    { rewrite E. apply Forall_forall. intros a Ia. apply filter_In in Ia. destruct Ia as [Ia _]. rewrite Forall_forall in F. auto. }
    destruct (attributes_show _ F') as (u & Eu). cbn [show_pattern]. rewrite Eu. eexists. reflexivity.
Qed.
Lemma patterns_show sd :
  (forall s p rest, inner_text sd s p rest -> exists u, show_pattern p = Ok u) /\
  (forall s p rest, pattern_text sd s p rest -> exists u, show_pattern p = Ok u) /\
  (forall s l rest, sequence_text sd s l rest -> exists u, show_patterns l = Ok u) /\
  (forall s l rest, alternatives_text sd s l rest -> exists u, show_patterns l = Ok u).
Proof.
  apply patterns_ind.
  - intros; eexists; reflexivity.
  - intros; destruct sd; eexists; reflexivity.
  - intros; destruct sd; eexists; reflexivity.
  - intros c a p rest M O. eapply one_of_shows; [exact O|]. constructor; [eapply match_letter_order, M|constructor].
  - intros s l p rest _ F O. eapply one_of_shows; [exact O|]. eapply match_letters_order, F.
  - intros; eexists; reflexivity.
  - intros s l rest _ (u & E). rewrite show_group, E. eexists. reflexivity.
  - intros s p rest _ (u & E) _. cbn [show_pattern]. rewrite E. eexists. reflexivity.
  - intros; eexists; reflexivity.
  - intros s p rest _ E _. exact E.
  - intros s p rest _ (u & E). cbn [show_pattern]. rewrite E. eexists. reflexivity.
  - intros s p rest _ (u & E). cbn [show_pattern]. rewrite E. eexists. reflexivity.
  - intros s p rest _ (u & E). cbn [show_pattern]. rewrite E. eexists. reflexivity.
  - intros s p rest _ (u & E). exists (u ++ []). apply show_cons; [exact E|reflexivity].
  - intros s p s' l rest _ (u & E) _ (u' & E'). exists (u ++ u'). apply show_cons; assumption.
  - intros s l rest _ E _. exact E.
  - intros s l s' l' rest _ (u & E) _ (u' & E') _. exists ((u ++ lit "|" ++ u') ++ []). apply show_cons; [|reflexivity]. rewrite show_either, E, E'. reflexivity.
Qed.
Lemma operand_shows sd s l : operand_text sd s l -> exists u, show_patterns l = Ok u /\ (Forall plain_pattern l -> operand_text sd u l).
Proof.
  intros T. assert (X : exists u, show_patterns l = Ok u).
  { destruct T as [|s|s l T N]; [exists []; reflexivity|exists (lit "-"); reflexivity|]. eapply patterns_show, T. }
  destruct X as (u & E). exists u. split; [exact E|]. intros P. destruct (operand_is_shown _ _ _ T P) as (u' & E' & T'). congruence.
Qed.
