(** C02, C03, C06, C07 for the correct, pass2, pass3 and pass4 passes. *)
From Coq Require Import Strings.String.
From Coq Require Import List.
From Verif Require Import Base BaseProofs RuleModel TranslationModel TableModel RegexpModel
  PatternModel OperandModel OperandProofs TestSpec PatternProofs PropContext LoopModel LoopProofs MultipassProofs.

(** A rule of a multipass table: its test and its action. *)
Definition pass_rule (r : rule) (test : list test_instr) (action : list action_instr) : Prop :=
  exists k, r = RCorrect test action k \/ r = RPass2 test action k \/ r = RPass3 test action k \/
            r = RPass4 test action k.
(** The tests of the rules were read by the parser. *)
Definition parsed (rules : list rule) : Prop := forall r test action, In r rules ->
  pass_rule r test action -> exists operand, parse_tests operand = Good test [].
(** The parts of a test [before [mid] after]; without brackets all of it is replaced. *)
Definition parts (test before mid after : list test_instr) : Prop :=
  forallb bracket_free mid = true /\ forallb bracket_free after = true /\
  (test = before ++ TReplace mid :: after \/
   forallb bracket_free test = true /\ before = [] /\ mid = test /\ after = []).
(** How many characters a list of pieces stands for. *)
Definition covered (l : list resolved) : nat := length (flat_map r_input l).
(** The variables after a list of pieces: the assignments of the rules applied, in order. *)
Definition variables_after (l : list resolved) (e : env) : Prop :=
  env_apply_all env_new (flat_map r_effects l) = Ok e.

Lemma implicit_replace test before mid after : parts test before mid after ->
  add_implicit_replace test = before ++ TReplace mid :: after.
Proof.
  intros (F1 & F2 & [E|(F & -> & -> & ->)]); unfold add_implicit_replace.
  - rewrite E, existsb_app. cbn [existsb is_replace]. rewrite orb_true_r. reflexivity.
  - assert (NR : existsb is_replace test = false).
    { destruct (existsb is_replace test) eqn:E; [|reflexivity]. apply existsb_exists in E.
      destruct E as (t & Ht & R). rewrite forallb_forall in F. specialize (F t Ht). destruct t; discriminate. }
    rewrite NR. reflexivity.
Qed.
(** a rule looked up from a cursor *)
Lemma rule_found lower x test operand action o st p e at_start text before mid after :
  parse_tests operand = Good test [] -> parts test before mid after ->
  context_insert x test action o st = TOk p ->
  exists r, cpat_find lower p e at_start text = Ok r /\
    match r with
    | None => forall s f j, ~ fits x st e at_start text before mid after s f j
    | Some t => exists s f j, fits x st e at_start text before mid after s f j /\ s <= f /\ f <= j /\
        j <= length text /\ r_offset t = s /\ r_length t = f - s /\ length (r_input t) = f - s
    end.
Proof.
  intros P D C. apply implicit_replace in D as AI. destruct D as (Fm & Fa & _).
  unfold context_insert in C. destruct (targets_of (x_swaps x) action) as [ts| |] eqn:Ets; try discriminate. cbn [tbind] in C.
  apply parse_tests_wf in P.
  assert (W : forallb wf_test (add_implicit_replace test) = true).
  { unfold add_implicit_replace. destruct (existsb _ _); [exact P|]. cbn [forallb wf_test]. rewrite P. reflexivity. }
  rewrite AI in C, W. destruct (re_of_instrs (stage_classes x st) _) as [r|] eqn:Er; [|discriminate]. injection C as <-.
  destruct (bracket_found lower (stage_classes x st) (env_get e) at_start text before mid after r W Fm Fa Er)
    as (res & Ef & H).
  unfold cpat_find. cbn [cp_re cp_payload]. rewrite Ef. destruct res as [f|]; cbn [bind].
  - destruct H as (s & fi & j & T1 & T2 & T3 & H1 & H2 & H3 & ->).
    unfold RegexpCorrect.report. cbn [f_capture f_length f_offset translation_resolve]. unfold unresolved_resolve.
    cbn [u_output u_prec u_stage u_effects u_origin]. rewrite (targets_output _ _ _ _ Ets). cbn [bind].
    eexists. split; [reflexivity|]. exists s, fi, j. split; [split; [exact T1|split; [exact T2|exact T3]]|].
    cbn [r_input r_length r_offset].
    assert (L : length (firstn (fi - s) (skipn s text)) = fi - s).
    { rewrite firstn_length, skipn_length. unfold char in *. lia. }
    repeat split; auto.
  - eexists. split; [reflexivity|]. intros s fi j (T1 & T2 & T3). apply (H s fi j). auto.
Qed.
Lemma rule_offer lower x test action o st p e at_start text t :
  context_insert x test action o st = TOk p -> cpat_find lower p e at_start text = Ok (Some t) ->
  r_origin t = Some o /\ r_output t = flat_map (action_output (table_swap x) (r_input t)) action /\
  r_effects t = effects_of action.
Proof.
  unfold context_insert. destruct (targets_of (x_swaps x) action) as [ts| |] eqn:Ets; try discriminate. cbn [tbind].
  destruct (re_of_instrs _ _) as [r|]; [|discriminate]. intros [= <-]. unfold cpat_find. cbn [cp_re cp_payload].
  destruct (regexp_find _ _ _ _ _) as [[f|]| |]; try discriminate. cbn [bind translation_resolve].
  unfold unresolved_resolve. cbn [u_output u_prec u_stage u_effects u_origin]. rewrite (targets_output _ _ _ _ Ets).
  cbn [bind]. intros [= <-]. auto.
Qed.

Section Table.
Variable lower : char -> list char.
Variable rules : list rule.
Variable d : direction.
Variable st : stage.
Variable x : context.
Variable ps : list cpat.
Hypothesis C : multipass_compile rules d st x = TOk ps.
Lemma patterns_ok : Forall rule_pattern ps.
Proof.
  eapply Forall_impl; [|apply (multipass_compile_spec rules d st x ps C)].
  intros p (r & test & action & k & _ & _ & E). eapply context_insert_rule_pattern, E.
Qed.
Lemma pattern_rule p : In p ps -> exists r test action, In r rules /\ pass_rule r test action /\
  context_insert x test action r st = TOk p.
Proof.
  intros H. pose proof (multipass_compile_spec rules d st x ps C) as F. rewrite Forall_forall in F.
  destruct (F p H) as (r & test & action & k & Hr & K & E). exists r, test, action. split; auto. split; [exists k; exact K|exact E].
Qed.
End Table.

(** ** C02 *)

(** Every compiled pass, on every text, ends without a panic after at most
    [multipass_fuel] = 1 + (n + 1) * (1 + rules * (n + 1)) iterations. *)
Theorem C02_passes_terminate : forall lower rules d st x ps text,
  multipass_compile rules d st x = TOk ps ->
  exists out, multipass_trace lower ps st text = Ok out.
Proof.
  intros lower rules d st x ps text C.
  destruct (trace_ok lower ps st text (patterns_ok rules d st x ps C)) as (out & E & _). eauto.
Qed.
Print Assumptions C02_passes_terminate.

(** ** C03 *)

(** The pieces of a pass stand for the input: nothing is skipped, repeated or reordered. *)
Theorem C03_pass_covers_input : forall lower rules d st x ps text out,
  multipass_compile rules d st x = TOk ps -> multipass_trace lower ps st text = Ok out ->
  flat_map r_input out = text /\ forall t, In t out -> r_length t = length (r_input t).
Proof.
  intros lower rules d st x ps text out C T.
  destruct (trace_ok lower ps st text (patterns_ok rules d st x ps C)) as (out' & E & H1 & H2 & _).
  rewrite T in E. injection E as <-. split; [exact H1|]. clear T H1. revert H2. generalize 0 as pos.
  induction out as [|u out IH]; cbn [mpieces]; intros pos H t []; subst; [apply H|].
  eapply IH; [apply H|assumption].
Qed.
Print Assumptions C03_pass_covers_input.

(** Each piece is either a single character copied unchanged, or the replacement a rule of
    the pass makes of the text the piece stands for; and the test of that rule, looked at
    from a position at or before the piece, fits there with its bracket on exactly the
    text replaced. *)
Theorem C03_pieces_are_copies_or_replacements : forall lower rules d st x ps text out a t b,
  parsed rules -> multipass_compile rules d st x = TOk ps ->
  multipass_trace lower ps st text = Ok out -> out = a ++ t :: b ->
  (exists c, r_input t = [c] /\ r_output t = [c] /\ r_origin t = None) \/
  (exists r test action, In r rules /\ pass_rule r test action /\ r_origin t = Some r /\
     r_output t = flat_map (action_output (table_swap x) (r_input t)) action /\
     forall before mid after, parts test before mid after ->
       exists q e s f j, q + s = covered a /\ f = s + length (r_input t) /\
         fits x st e (Nat.eqb q 0) (skipn q text) before mid after s f j).
Proof.
  intros lower rules d st x ps text out a t b PR C T E.
  destruct (trace_ok lower ps st text (patterns_ok rules d st x ps C)) as (out' & E' & H1 & H2 & _).
  rewrite T in E'. injection E' as <-. subst out. apply mpieces_app in H2. destruct H2 as [_ H2].
  cbn [mpieces] in H2. destruct H2 as (L & [(c & ->)|(O & O0 & p & q & e & o & Hp & Hq & Q & F)] & _).
  - left. exists c. auto.
  - right. destruct (pattern_rule _ _ _ _ _ C p Hp) as (r & test & action & Hr & K & CI).
    exists r, test, action. destruct (rule_offer _ _ _ _ _ _ _ _ _ _ _ CI F) as (X1 & X2 & _).
    cbn [with_offset r_origin r_output r_input] in X1, X2. split; [exact Hr|]. split; [exact K|].
    split; [exact X1|]. split; [exact X2|].
    intros before mid after D. destruct (PR r test action Hr K) as (operand & P).
    destruct (rule_found lower x test operand action r st p e (Nat.eqb q 0) (skipn q text) before mid after P D CI)
      as (res & Er & H). rewrite F in Er. injection Er as <-.
    destruct H as (s & f & j & Fi & B1 & B2 & B3 & B4 & B5 & B6). cbn [with_offset r_offset r_length r_input] in B4, B5, B6.
    exists q, e, s, f, j. split; [|split; [|exact Fi]].
    + unfold covered. unfold total in Q. rewrite O0 in Q. lia.
    + lia.
Qed.
Print Assumptions C03_pieces_are_copies_or_replacements.

(** If no rule of the pass fits anywhere in the text, whatever the variables, the pass
    returns the text unchanged. *)
Theorem C03_nothing_fits_nothing_changes : forall lower rules d st x ps text,
  parsed rules -> multipass_compile rules d st x = TOk ps ->
  (forall r test action, In r rules -> pass_rule r test action ->
     exists before mid after, parts test before mid after /\
       forall q e s f j, ~ fits x st e (Nat.eqb q 0) (skipn q text) before mid after s f j) ->
  multipass_translate lower ps st text = Ok text.
Proof.
  intros lower rules d st x ps text PR C H.
  unfold multipass_translate. rewrite (trace_copies lower ps st text (patterns_ok rules d st x ps C)).
  - cbn [bind]. f_equal. unfold outputs. clear H. induction text as [|c text IH]; cbn [map flat_map resolved_new r_output app];
      [reflexivity|]. f_equal. exact IH.
  - intros q e _. pose proof (pattern_rule _ _ _ _ _ C) as PRL. clear C. induction ps as [|p ps' IH]; [reflexivity|].
    cbn [cpats_find]. destruct (PRL p (or_introl eq_refl)) as (r & test & action & Hr & K & CI).
    destruct (H r test action Hr K) as (before & mid & after & D & N). destruct (PR r test action Hr K) as (operand & P).
    destruct (rule_found lower x test operand action r st p e (Nat.eqb q 0) (skipn q text) before mid after P D CI)
      as (res & Er & H2). rewrite Er. cbn [bind].
    destruct res as [t|]; [destruct H2 as (s & f & j & Fi & _); destruct (N _ _ _ _ _ Fi)|].
    rewrite IH; [reflexivity|]. intros p' Hp'. apply PRL. right. exact Hp'.
Qed.
Print Assumptions C03_nothing_fits_nothing_changes.

(** ** C06 and C07: which rule is applied *)

(** The insertion [u] has been made (by a piece with the same replacement and weight) since
    a rule last replaced some text; copied characters do not count as replaced. *)
Definition already_inserted (a : list resolved) (u : resolved) : Prop :=
  exists l z m, a = l ++ z :: m /\ r_length z = 0 /\
    r_input z = r_input u /\ r_output z = r_output u /\ r_length u = 0 /\ r_weight z = r_weight u /\
    forall y, In y m -> r_length y = 0 \/ r_origin y = None.
Lemma recent_spec a u : In (subset_of u) (recent a) <-> already_inserted a u.
Proof.
  unfold already_inserted. induction a as [|t a IH] using rev_ind.
  - split; [intros []|]. intros (l & z & m & E & _). destruct l; discriminate.
  - rewrite recent_snoc. destruct (Nat.eqb_spec (r_length t) 0) as [Z|Z].
    + split.
      * intros [E|H].
        -- unfold subset_of in E. injection E as E1 E2 E3 E4. exists a, t, []. repeat split; auto; try congruence.
           intros y [].
        -- apply IH in H. destruct H as (l & z & m & -> & H1 & H2 & H3 & H4 & H5 & H6).
           exists l, z, (m ++ [t]). rewrite <- app_assoc. repeat split; auto. intros y Hy. apply in_app_or in Hy.
           destruct Hy as [Hy|[<-|[]]]; auto.
      * intros (l & z & m & E & H1 & H2 & H3 & H4 & H5 & H6). destruct m as [|y m] using rev_ind.
        -- apply app_inj_tail in E. destruct E as [_ ->]. left. unfold subset_of. congruence.
        -- right. apply IH. rewrite app_comm_cons, app_assoc in E. apply app_inj_tail in E. destruct E as [-> ->].
           exists l, z, m. repeat split; auto. intros y' Hy'. apply H6, in_or_app. auto.
    + destruct (r_origin t) as [o|] eqn:Eo.
      * split; [intros []|]. intros (l & z & m & E & H1 & H2 & H3 & H4 & H5 & H6). destruct m as [|y m] using rev_ind.
        -- apply app_inj_tail in E. destruct E as [_ ->]. contradiction.
        -- rewrite app_comm_cons, app_assoc in E. apply app_inj_tail in E. destruct E as [-> ->].
           destruct (H6 y ltac:(apply in_or_app; simpl; auto)); congruence.
      * split.
        -- intros H. apply IH in H. destruct H as (l & z & m & -> & H1 & H2 & H3 & H4 & H5 & H6).
           exists l, z, (m ++ [t]). rewrite <- app_assoc. repeat split; auto. intros y Hy. apply in_app_or in Hy.
           destruct Hy as [Hy|[<-|[]]]; auto.
        -- intros (l & z & m & E & H1 & H2 & H3 & H4 & H5 & H6). destruct m as [|y m] using rev_ind.
           ++ apply app_inj_tail in E. destruct E as [_ ->]. contradiction.
           ++ apply IH. rewrite app_comm_cons, app_assoc in E. apply app_inj_tail in E. destruct E as [-> ->].
              exists l, z, m. repeat split; auto. intros y' Hy'. apply H6, in_or_app. auto.
Qed.
(** An offer to apply at once, for the text behind the pieces [a]. *)
Definition offered_behind lower ps text (a : list resolved) (u : resolved) : Prop :=
  exists e found, variables_after a e /\
    cpats_find lower ps e (Nat.eqb (covered a) 0) (skipn (covered a) text) = Ok found /\
    In u found /\ r_offset u = 0.

(** At each step, no rule found for the cursor that has not been used there has more weight
    than the one applied; a character is copied only if there is no such rule; and after
    the last character all that is found has been used. *)
Theorem C06_passes_apply_the_heaviest_rule : forall lower rules d st x ps text out,
  multipass_compile rules d st x = TOk ps -> multipass_trace lower ps st text = Ok out ->
  (forall a t b u, out = a ++ t :: b -> offered_behind lower ps text a u ->
     ~ already_inserted a u ->
     r_origin t <> None /\ r_weight u <= r_weight t) /\
  (forall u, offered_behind lower ps text out u -> already_inserted out u).
Proof.
  intros lower rules d st x ps text out C T.
  destruct (trace_ok lower ps st text (patterns_ok rules d st x ps C)) as (out' & E & _ & _ & _ & AB & NF).
  rewrite T in E. injection E as <-. split.
  - intros a t b u Eo (e & found & X1 & X2 & X3 & X4) X5. apply (AB a t b Eo u). exists e, found.
    repeat split; auto. intros I. apply X5, recent_spec, I.
  - intros u (e & found & X1 & X2 & X3 & X4). apply recent_spec.
    destruct (existsb (subset_eqb (subset_of u)) (recent out)) eqn:Ex.
    + apply existsb_exists in Ex. destruct Ex as (y & Hy & Ey). apply subset_eqb_eq in Ey. subst. exact Hy.
    + exfalso. apply (NF u). exists e, found. repeat split; auto. intros I.
      assert (existsb (subset_eqb (subset_of u)) (recent out) = true); [|congruence].
      apply existsb_exists. exists (subset_of u). split; [exact I|]. apply subset_eqb_eq. reflexivity.
Qed.
Print Assumptions C06_passes_apply_the_heaviest_rule.

(** At one position the same insertion (same replacement and weight) is made at most once. *)
Theorem C07_no_insertion_twice_in_a_place : forall lower rules d st x ps text out a zs b,
  multipass_compile rules d st x = TOk ps -> multipass_trace lower ps st text = Ok out ->
  out = a ++ zs ++ b -> (forall t, In t zs -> r_length t = 0) ->
  NoDup (map (fun t => (r_output t, r_weight t)) zs).
Proof.
  intros lower rules d st x ps text out a zs b C T E Z.
  destruct (trace_ok lower ps st text (patterns_ok rules d st x ps C)) as (out' & E' & _ & MP & ON & _).
  rewrite T in E'. injection E' as <-. specialize (ON a zs b E ltac:(apply Forall_forall; exact Z)).
  assert (I0 : forall t, In t zs -> r_input t = []).
  { intros t Ht. destruct (C03_pass_covers_input lower rules d st x ps text out C T) as [_ L].
    assert (In t out) by (subst; apply in_or_app; right; apply in_or_app; auto).
    specialize (L t H). rewrite (Z t Ht) in L. destruct (r_input t); [reflexivity|discriminate]. }
  assert (M : map subset_of zs = map (fun ow : str * nat => ([], fst ow, 0, snd ow)) (map (fun t => (r_output t, r_weight t)) zs)).
  { rewrite map_map. apply map_ext_in. intros t Ht. unfold subset_of. rewrite (I0 t Ht), (Z t Ht). reflexivity. }
  rewrite M in ON. apply NoDup_map_inv in ON. exact ON.
Qed.
Print Assumptions C07_no_insertion_twice_in_a_place.

(** ** Examples *)
Definition ex_pass_in (x : context) (rules : list (string * string)) (text : string) : option (res str) :=
  let go := fix go (l : list (string * string)) : option (list rule) :=
    match l with
    | [] => Some []
    | (t, a) :: r => match parse_tests (lit t), parse_actions (lit a), go r with
                     | Good ts [], Good acts [], Some rs => Some (RCorrect ts acts no_constraints :: rs)
                     | _, _, _ => None
                     end
    end in
  match go rules with
  | Some rs => match multipass_compile rs Forward Pre x with
               | TOk ps => Some (multipass_translate (fun c => [c]) ps Pre (lit text))
               | _ => None
               end
  | None => None
  end.
Definition ex_pass := ex_pass_in ex_x.
Arguments ex_pass_in x rules%list text%string.
Arguments ex_pass rules%list text%string.
(** [correct []"a" "b"] on "aa": the test holds at both positions, but because copying a
    character does not forget the insertion, the second one is not made.  When a rule
    replaces text in between, it is. *)
Theorem C07_every_position_refuted :
  ex_pass [("[]""a""", """b""")]%string "aa" = Some (Ok (lit "baa")).
Proof. vm_compute. reflexivity. Qed.
Print Assumptions C07_every_position_refuted.
Example C07_example_between :
  ex_pass [("[]""a""", """b"""); ("""x""", """y""")]%string "axa" = Some (Ok (lit "bayba")).
Proof. vm_compute. reflexivity. Qed.
Example C02_C03_example :
  ex_pass [("""a""[""b""]", "*""!"""); ("[]""z""", """(""")]%string "cabz" = Some (Ok (lit "cab!(z")) /\
  ex_pass [("""a""[""b""]", "*""!"""); ("[]""z""", """(""")]%string "hello" = Some (Ok (lit "hello")).
Proof. split; vm_compute; reflexivity. Qed.
(** A rule whose test matches in two ways makes two insertions at one position: behind the
    optional letter and without it, with different weights. *)
Theorem C07_same_rule_twice_refuted :
  ex_pass_in (mk_context [] [(CLetter, 97%N); (CLetter, 98%N); (CLetter, 99%N)] [] [])
    [("$l0-1[]""b""", """x""")]%string "ab" = Some (Ok (lit "axxb")).
Proof. vm_compute. reflexivity. Qed.
Print Assumptions C07_same_rule_twice_refuted.
