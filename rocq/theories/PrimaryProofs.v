(** The loop of the main pass. *)
From Verif Require Import Base BaseProofs RuleModel TranslationModel TranslationProofs TableModel RegexpModel
  RegexpSpec RegexpCorrect PatternModel MatchProofs TrieModel BrailleModel LoopModel LoopProofs MultipassProofs.

(** ** Undefined characters *)
Lemma fallback_ok c : In c (map fst nabcc) -> exists x, fallback c = Ok x.
Proof. simpl. intros H. repeat (destruct H as [<-|H]; [eexists; vm_compute; reflexivity|]). destruct H. Qed.
Lemma hex_digit_in v : (v < 16)%N -> In (hex_digit v) (map fst nabcc).
Proof.
  intros H. assert (E : exists k, k < 16 /\ v = N.of_nat k) by (exists (N.to_nat v); split; lia).
  destruct E as (k & Hk & ->). do 16 (destruct k as [|k]; [vm_compute; tauto|]). lia.
Qed.
Lemma hex_loop_in fuel : forall v acc, (forall c, In c acc -> In c (map fst nabcc)) ->
  forall c, In c (hex_loop fuel v acc) -> In c (map fst nabcc).
Proof.
  induction fuel as [|f IH]; intros v acc H c; cbn [hex_loop]; [apply H|].
  assert (H' : forall c, In c (hex_digit (v mod 16) :: acc) -> In c (map fst nabcc)).
  { intros x [<-|Hx]; [|auto]. apply hex_digit_in. apply N.mod_lt. lia. }
  destruct (N.ltb v 16); [apply H'|apply IH; exact H'].
Qed.
Lemma spell_ok defs s : (forall c, In c s -> In c (map fst nabcc)) -> exists t, spell defs s = Ok t.
Proof.
  induction s as [|c s IH]; intros H; cbn [spell]; [eauto|].
  assert (E : exists a, match defs_get defs c with Some t => Ok t | None => do f <- fallback c; Ok [f] end = Ok a).
  { destruct (defs_get defs c); [eauto|]. destruct (fallback_ok c) as (x & ->); [apply H; left; reflexivity|]. cbn [bind]. eauto. }
  destruct E as (a & ->). destruct IH as (t & ->); [intros; apply H; right; assumption|]. cbn [bind]. eauto.
Qed.
Lemma handle_undefined_ok defs c : exists t, handle_undefined defs c = Ok t.
Proof.
  apply spell_ok. intros x [<-|[<-|Hx]]; [vm_compute; tauto|vm_compute; tauto|].
  revert Hx. apply hex_loop_in. intros y [].
Qed.

(** ** What the loop needs to know of a table *)
Section Main.
Variable lower upper : char -> list char.

(** an offer of a rule trie *)
Definition trie_offer (rest : str) (t : resolved) : Prop :=
  r_offset t = 0 /\ 1 <= r_length t /\ r_length t <= length rest /\ r_length t = length (r_input t) /\
  like lower (firstn (r_length t) rest) (r_input t) /\ r_effects t = [].
(** the translation of a single character *)
Definition char_offer (c : char) (t : resolved) : Prop :=
  r_offset t = 0 /\ r_length t = 1 /\ r_input t = [c] /\ r_effects t = [].
Record table_ok (p : ptable) : Prop := mk_table_ok {
  ok_trie : forall rest prev t, In t (find_translations lower (p_trie p) rest prev) -> trie_offer rest t;
  ok_comp6 : forall rest prev t, In t (find_translations lower (p_comp6 p) rest prev) -> trie_offer rest t;
  ok_nocross : forall rest prev t, In t (find_translations lower (p_nocross p) rest prev) -> trie_offer rest t;
  ok_chars : forall c t, assoc c (p_chars p) = Some t -> char_offer c t;
  ok_digits : forall c t, assoc c (p_digits p) = Some t -> char_offer c t;
  ok_match : Forall match_pattern (p_match p);
  ok_context : Forall rule_pattern (p_context p) }.
(** the pieces of an indicator stand for no text *)
Definition indications_ok (l : list (list resolved)) : Prop :=
  forall ts t, In ts l -> In t ts -> r_length t = 0 /\ r_input t = [] /\ r_effects t = [].

Variable p : ptable.
Variable indications : list (list resolved).
Variable limits : pos_flags.
Variable input : str.
Hypothesis P : table_ok p.
Hypothesis I : indications_ok indications.
Notation n := (length input).
Definition pats : list cpat := p_match p ++ p_context p.
Definition pat_ok (q : cpat) : Prop := match_pattern q \/ rule_pattern q.
Notation K := (length (universe n pats)).
Notation sim := (like lower).

Lemma pats_ok : Forall pat_ok pats.
Proof.
  unfold pats, pat_ok. apply Forall_app. split; (eapply Forall_impl; [|first [apply (ok_match _ P)|apply (ok_context _ P)]]); auto.
Qed.
Lemma pat_find q e at_start rest m : pat_ok q -> length rest <= m ->
  exists o, cpat_find lower q e at_start rest = Ok o /\ forall t, o = Some t -> offered sim m [q] rest t.
Proof.
  intros [H|H] L; [apply match_pattern_find; auto|].
  destruct (rule_pattern_find lower q e at_start rest m H L) as (o & Eo & Ho). exists o. split; [exact Eo|].
  intros t Et. eapply offered_mono; [|apply Ho, Et]. intros a b ->. apply like_refl.
Qed.
Lemma pending_ok pos t : pending lower input pats pos t -> offered sim n pats (skipn pos input) t.
Proof. apply (pending_offered lower input sim pat_ok); [|exact pats_ok]. intros. apply pat_find; auto. Qed.
Lemma pending_incl ps qs pos t : incl ps qs -> pending lower input ps pos t -> pending lower input qs pos t.
Proof. intros H (q & i & e & o & Hq & X). exists q, i, e, o. split; auto. Qed.
Lemma some_find ps e pos : Forall pat_ok ps -> pos <= n ->
  exists l, cpats_find lower ps e (Nat.eqb pos 0) (skipn pos input) = Ok l.
Proof.
  intros F H. destruct (cpats_find_offered lower sim pat_ok n e (Nat.eqb pos 0) (skipn pos input)) with (ps := ps)
    as (l & El & _); eauto.
  intros q Hq. apply pat_find; auto. rewrite skipn_length. unfold char in *. lia.
Qed.

(** ** The invariant *)
(** a piece and the text it stands for *)
Definition stands_for (seg : str) (t : resolved) : Prop :=
  r_length t = length seg /\ r_length t = length (r_input t) /\ sim seg (r_input t).
Definition cover (text : str) (out : list resolved) : Prop :=
  exists segs, concat segs = text /\ Forall2 stands_for segs out.
Lemma cover_nil : cover [] [].
Proof. exists []. split; [reflexivity|constructor]. Qed.
Lemma cover_app a b x y : cover a x -> cover b y -> cover (a ++ b) (x ++ y).
Proof.
  intros (s & <- & F) (s' & <- & F'). exists (s ++ s'). split; [apply concat_app|]. apply Forall2_app; auto.
Qed.
Lemma cover_zero ts : (forall t, In t ts -> r_length t = 0 /\ r_input t = [] /\ r_effects t = []) -> cover [] ts.
Proof.
  intros H. exists (map (fun _ => []) ts). induction ts as [|t ts IH]; [split; [reflexivity|constructor]|].
  destruct IH as [E F]; [intros; apply H; right; assumption|]. cbn [map concat]. split; [exact E|].
  destruct (H t (or_introl eq_refl)) as (A & B & C). constructor; [|exact F]. split; [exact A|]. rewrite A, B.
  split; [reflexivity|constructor].
Qed.
Lemma cover_one pos t : pos + r_length t <= n -> r_length t = length (r_input t) ->
  sim (firstn (r_length t) (skipn pos input)) (r_input t) ->
  cover (firstn (r_length t) (skipn pos input)) [t].
Proof.
  intros H1 H2 H3. eexists [_]. split; [cbn [concat]; apply app_nil_r|]. constructor; [|constructor].
  split; [|auto]. rewrite firstn_length, skipn_length. unfold char in *. lia.
Qed.
Lemma adjust_case_fields pos t : r_length (adjust_case upper p limits pos t) = r_length t /\
  r_input (adjust_case upper p limits pos t) = r_input t /\ r_effects (adjust_case upper p limits pos t) = r_effects t /\
  r_weight (adjust_case upper p limits pos t) = r_weight t /\ r_origin (adjust_case upper p limits pos t) = r_origin t.
Proof.
  unfold adjust_case. destruct (p_dir p); [auto|]. destruct (flag_at k_uppercase limits pos); [cbn; auto|].
  destruct (flag_at k_titlecase limits pos); cbn; auto.
Qed.

(** the order of the trace: indications of a position, then what is inserted there, then
    the piece that moves the cursor *)
Inductive front : nat -> bool -> list resolved -> Prop :=
| F_start : front 0 true []
| F_indications pos out : front pos true out -> front pos false (out ++ nth pos indications [])
| F_insert pos out t : front pos false out -> r_length t = 0 -> front pos false (out ++ [t])
| F_piece pos out t : front pos false out -> 1 <= r_length t -> front (pos + r_length t) true (out ++ [t]).
Definition fresh (s : pstate) : bool :=
  match s_last s with Some q => negb (Nat.eqb q (s_pos s)) | None => true end.

Record pinv (s : pstate) : Prop := mk_pinv {
  pi_pos : s_pos s <= n;
  pi_rest : s_rest s = skipn (s_pos s) input;
  pi_delayed : Forall (pending lower input pats (s_pos s)) (s_delayed s);
  pi_nodup : NoDup (s_seen s);
  pi_seen : incl (s_seen s) (universe n pats);
  pi_cover : cover (firstn (s_pos s) input) (s_out s);
  pi_env : env_apply_all env_new (flat_map r_effects (s_out s)) = Ok (s_env s);
  pi_prev : s_prev s = last_char (flat_map r_input (s_out s));
  pi_last : match s_last s with Some q => q <= s_pos s | None => s_pos s = 0 end;
  pi_front : front (s_pos s) (fresh s) (s_out s) }.
Definition pmeasure (s : pstate) : nat := length (s_rest s) * S K + (K - length (s_seen s)).

(** ** The candidates *)
Lemma in_trie t rest prev : In t (now (find_translations lower (p_trie p) rest prev)) -> trie_offer rest t.
Proof. intros H. apply now_In in H. apply (ok_trie _ P rest prev), H. Qed.
Lemma later_trie rest prev : later (find_translations lower (p_trie p) rest prev) = [].
Proof.
  destruct (later _) as [|t l] eqn:E; [reflexivity|]. exfalso.
  assert (H : In t (later (find_translations lower (p_trie p) rest prev))) by (rewrite E; left; reflexivity).
  apply later_In in H. destruct H as [H1 H2]. apply (ok_trie _ P) in H1. apply H2, H1.
Qed.
(** a candidate stands for the text at the cursor and has good effects *)
Definition candidate (pos : nat) (t : resolved) : Prop :=
  pos + r_length t <= n /\ r_length t = length (r_input t) /\
  sim (firstn (r_length t) (skipn pos input)) (r_input t) /\ sets_only t /\
  (r_length t = 0 -> In (subset_of t) (universe n pats)).
Lemma trie_candidate pos t : pos <= n -> trie_offer (skipn pos input) t -> candidate pos t.
Proof.
  intros Hp (A & B & C & D & E & F). rewrite skipn_length in C. split; [unfold char in *; lia|]. split; [exact D|].
  split; [exact E|]. split; [|intros; lia]. unfold sets_only. rewrite F. constructor.
Qed.
Lemma offered_candidate pos t : pos <= n -> r_offset t = 0 -> offered sim n pats (skipn pos input) t -> candidate pos t.
Proof.
  intros Hp O ((A & B & C) & D & E & F). rewrite O in A, C. rewrite skipn_length in A. cbn [skipn] in C.
  split; [unfold char in *; lia|]. auto.
Qed.
Lemma char_candidate pos c r t : skipn pos input = c :: r -> char_offer c t -> candidate pos t.
Proof.
  intros E (A & B & C & D). assert (L : length (skipn pos input) = S (length r)) by (rewrite E; reflexivity).
  rewrite skipn_length in L. split; [rewrite B; unfold char in *; lia|]. rewrite B, C. split; [reflexivity|].
  split; [rewrite E; apply like_refl|]. split; [|discriminate]. unfold sets_only. rewrite D. constructor.
Qed.

Section Candidates.
Variable s : pstate.
Hypothesis PI : pinv s.
Lemma candidates_ok : exists cs ds, primary_candidates lower p limits input s = Ok (cs, ds) /\
  Forall (pending lower input pats (s_pos s)) ds /\ forall t, In t cs -> candidate (s_pos s) t.
Proof.
  destruct PI as [P1 P2 P3 P4 P5 P6 P7 P8 P9 P10]. unfold primary_candidates. rewrite P2, blen_skipn by exact P1.
  pose proof pats_ok as PO. unfold pats in PO. apply Forall_app in PO. destruct PO as [POm POc].
  destruct (some_find (p_match p) env_new (s_pos s) POm P1) as (ms & Em). unfold match_find. rewrite Em. cbn [bind].
  destruct (some_find (p_context p) (s_env s) (s_pos s) POc P1) as (xs & Ex). rewrite Ex. cbn [bind].
  rewrite later_trie. cbn [app].
  assert (Pm : Forall (pending lower input pats (s_pos s)) ms).
  { eapply Forall_impl; [|eapply cpats_find_pending; [exact P1|exact Em]]. intros t. apply pending_incl.
    intros q Hq. unfold pats. apply in_or_app. auto. }
  assert (Px : Forall (pending lower input pats (s_pos s)) xs).
  { eapply Forall_impl; [|eapply cpats_find_pending; [exact P1|exact Ex]]. intros t. apply pending_incl.
    intros q Hq. unfold pats. apply in_or_app. auto. }
  set (delayed := s_delayed s ++ later ms ++ later xs).
  assert (Pd : Forall (pending lower input pats (s_pos s)) delayed).
  { unfold delayed. apply Forall_app. split; [exact P3|]. apply Forall_app. rewrite Forall_forall in Pm, Px.
    split; apply Forall_forall; intros t Ht; apply later_In in Ht; [apply Pm|apply Px]; apply Ht. }
  assert (C0 : forall t, In t (now (find_translations lower (p_trie p) (skipn (s_pos s) input) (s_prev s)) ++
                              now ms ++ now xs ++ now delayed) -> candidate (s_pos s) t).
  { intros t Ht. rewrite Forall_forall in Pm, Px, Pd. apply in_app_or in Ht.
    destruct Ht as [Ht|Ht]; [apply trie_candidate, (in_trie t _ (s_prev s)); auto|].
    apply in_app_or in Ht. destruct Ht as [Ht|Ht].
    { apply now_In in Ht. apply offered_candidate; [exact P1|apply Ht|apply pending_ok, Pm, Ht]. }
    apply in_app_or in Ht. destruct Ht as [Ht|Ht].
    { apply now_In in Ht. apply offered_candidate; [exact P1|apply Ht|apply pending_ok, Px, Ht]. }
    apply now_In in Ht. apply offered_candidate; [exact P1|apply Ht|apply pending_ok, Pd, Ht]. }
  eexists. eexists. split; [reflexivity|]. split.
  { apply Forall_forall. intros t Ht. apply later_In in Ht. rewrite Forall_forall in Pd. apply Pd, Ht. }
  intros t Ht.
  destruct (flag_at k_comp6 limits (s_pos s)).
  { apply trie_candidate; [exact P1|]. apply (ok_comp6 _ P) in Ht. exact Ht. }
  assert (Ht' : In t (prefer_digit p limits (skipn (s_pos s) input) (s_pos s)
                 (filter (punc_ok limits (s_pos s)) (now (find_translations lower (p_trie p) (skipn (s_pos s) input) (s_prev s)) ++
                              now ms ++ now xs ++ now delayed)))).
  { destruct (flag_at k_dont_contract limits (s_pos s)); [apply filter_In in Ht; apply Ht|exact Ht]. }
  clear Ht. unfold prefer_digit in Ht'.
  assert (G : In t (filter (punc_ok limits (s_pos s)) (now (find_translations lower (p_trie p) (skipn (s_pos s) input) (s_prev s)) ++
                              now ms ++ now xs ++ now delayed)) -> candidate (s_pos s) t).
  { intros H. apply filter_In in H. apply C0, H. }
  destruct (p_dir p); [apply G, Ht'|]. destruct (flag_at k_digit limits (s_pos s)); [|apply G, Ht'].
  destruct (skipn (s_pos s) input) as [|c r] eqn:Er; [apply G, Ht'|].
  destruct (assoc c (p_digits p)) as [dt|] eqn:Ed; [|apply G, Ht'].
  apply in_app_or in Ht'. destruct Ht' as [Ht'|[<-|[]]].
  - apply filter_In in Ht'. apply G, Ht'.
  - apply (char_candidate (s_pos s) c r); [exact Er|]. apply (ok_digits _ P), Ed.
Qed.
Lemma nocross_ok t : In t (nocross_candidates lower p limits (s_rest s) (s_prev s) (s_pos s)) ->
  candidate (s_pos s) t /\ r_offset t = 0 /\ 1 <= r_length t /\ r_effects t = [].
Proof.
  intros H. unfold nocross_candidates in H. apply filter_In in H. destruct H as [H _].
  rewrite (pi_rest _ PI) in H. apply (ok_nocross _ P) in H. split; [apply trie_candidate; [apply PI|exact H]|].
  destruct H as (A & B & _ & _ & _ & F). auto.
Qed.
End Candidates.

(** ** A step *)
Lemma indicated_front s : pinv s ->
  front (s_pos s) false (s_out s ++ indicated indications s) /\
  cover (firstn (s_pos s) input) (s_out s ++ indicated indications s) /\
  env_apply_all env_new (flat_map r_effects (s_out s ++ indicated indications s)) = Ok (s_env s) /\
  flat_map r_input (s_out s ++ indicated indications s) = flat_map r_input (s_out s).
Proof.
  intros PI. pose proof (pi_front s PI) as FR. unfold fresh, indicated in *.
  assert (Z : forall t, In t (nth (s_pos s) indications []) -> r_length t = 0 /\ r_input t = [] /\ r_effects t = []).
  { intros t Ht. destruct (nth_in_or_default (s_pos s) indications []) as [H|H]; [|rewrite H in Ht; destruct Ht].
    apply (I _ _ H Ht). }
  assert (G : forall ts, (forall t, In t ts -> r_length t = 0 /\ r_input t = [] /\ r_effects t = []) ->
     cover (firstn (s_pos s) input) (s_out s ++ ts) /\
     env_apply_all env_new (flat_map r_effects (s_out s ++ ts)) = Ok (s_env s) /\
     flat_map r_input (s_out s ++ ts) = flat_map r_input (s_out s)).
  { intros ts H. split; [|split].
    - rewrite <- (app_nil_r (firstn (s_pos s) input)). apply cover_app; [apply PI|]. apply cover_zero. auto.
    - rewrite flat_map_app, (env_apply_all_app _ _ _ _ (pi_env s PI)).
      assert (E : flat_map r_effects ts = []).
      { clear -H. induction ts as [|t ts IH]; [reflexivity|]. cbn [flat_map]. destruct (H t (or_introl eq_refl)) as (_ & _ & ->).
        apply IH. intros; apply H; right; assumption. }
      rewrite E. reflexivity.
    - rewrite flat_map_app. assert (E : flat_map r_input ts = []).
      { clear -H. induction ts as [|t ts IH]; [reflexivity|]. cbn [flat_map]. destruct (H t (or_introl eq_refl)) as (_ & -> & _).
        apply IH. intros; apply H; right; assumption. }
      rewrite E, app_nil_r. reflexivity. }
  destruct (s_last s) as [q|].
  - destruct (Nat.eqb q (s_pos s)); cbn [negb] in FR.
    + split; [rewrite app_nil_r; exact FR|]. apply G. intros t [].
    + split; [apply F_indications, FR|]. apply G. exact Z.
  - split; [apply F_indications, FR|]. apply G. exact Z.
Qed.
Lemma last_char_app a b : b <> [] -> last_char (a ++ b) = last_char b.
Proof.
  intros H. unfold last_char. rewrite map_app.
  induction a as [|x a IH]; [reflexivity|]. cbn [map app]. simpl. rewrite IH.
  destruct (map Some a ++ map Some b) eqn:E; [|reflexivity].
  destruct b; [contradiction|]. destruct a; discriminate.
Qed.
Lemma piece_fits s t out : pinv s -> candidate (s_pos s) t ->
  cover (firstn (s_pos s) input) out -> cover (firstn (s_pos s + r_length t) input) (out ++ [t]).
Proof.
  intros PI (A & B & C & _) H. rewrite firstn_skipn_add. apply cover_app; [exact H|]. apply cover_one; auto.
Qed.
Lemma env_piece e out t e' : env_apply_all env_new (flat_map r_effects out) = Ok e ->
  env_apply_all e (r_effects t) = Ok e' -> env_apply_all env_new (flat_map r_effects (out ++ [t])) = Ok e'.
Proof.
  intros H H'. rewrite flat_map_app, (env_apply_all_app _ _ _ _ H). cbn [flat_map]. rewrite app_nil_r. exact H'.
Qed.
Lemma candidate_adjust pos t : candidate pos t -> candidate pos (adjust_case upper p limits pos t) \/ r_length t = 0.
Proof.
  intros (A & B & C & D & E). destruct (adjust_case_fields pos t) as (F1 & F2 & F3 & F4 & F5).
  destruct (Nat.eq_dec (r_length t) 0) as [Z|Z]; [right; exact Z|left].
  unfold candidate, sets_only in *. rewrite F1, F2, F3. repeat split; auto. intros; contradiction.
Qed.
Lemma cover_adjust s t out : pinv s -> candidate (s_pos s) t -> cover (firstn (s_pos s) input) out ->
  cover (firstn (s_pos s + r_length t) input) (out ++ [adjust_case upper p limits (s_pos s) t]).
Proof.
  intros PI (A & B & C & _) H. destruct (adjust_case_fields (s_pos s) t) as (F1 & F2 & _).
  rewrite firstn_skipn_add. apply cover_app; [exact H|]. rewrite <- F1. apply cover_one; rewrite ?F1, ?F2; auto.
Qed.
Lemma fallback_ok' c : exists t, fallback_piece p c = Ok t /\ r_offset t = 0 /\ r_length t = 1 /\ r_input t = [c] /\ r_effects t = [].
Proof.
  unfold fallback_piece. destruct (assoc c (p_chars p)) as [t|] eqn:E.
  - exists t. split; [reflexivity|]. apply (ok_chars _ P), E.
  - destruct (p_undefined p) as [u|]; [eexists; split; [reflexivity|]; cbn; auto|].
    destruct (handle_undefined_ok (p_fallback p) c) as (h & ->). eexists. split; [reflexivity|]. cbn; auto.
Qed.

(** the piece put out by a step, and why *)
Inductive choice (s : pstate) (cs : list resolved) : resolved -> nat -> Prop :=
| Ch_nocross t : In t (nocross_candidates lower p limits (s_rest s) (s_prev s) (s_pos s)) ->
    (forall u, In u (nocross_candidates lower p limits (s_rest s) (s_prev s) (s_pos s)) -> r_weight u <= r_weight t) ->
    (forall u, In u cs -> ~ In (subset_of u) (s_seen s) -> r_weight u <= r_weight t) ->
    choice s cs (adjust_case upper p limits (s_pos s) t) (r_length t)
| Ch_rule t : In t cs -> ~ In (subset_of t) (s_seen s) ->
    (forall u, In u cs -> ~ In (subset_of u) (s_seen s) -> r_weight u <= r_weight t) ->
    (forall u, In u (nocross_candidates lower p limits (s_rest s) (s_prev s) (s_pos s)) -> r_weight u < r_weight t) ->
    choice s cs (adjust_case upper p limits (s_pos s) t) (r_length t)
| Ch_fallback c r t : s_rest s = c :: r -> fallback_piece p c = Ok t ->
    (forall u, In u cs -> In (subset_of u) (s_seen s)) ->
    nocross_candidates lower p limits (s_rest s) (s_prev s) (s_pos s) = [] ->
    choice s cs t 1.

Lemma seen_or seen (u : resolved) : In (subset_of u) seen \/ ~ In (subset_of u) seen.
Proof.
  destruct (was_seen seen u) eqn:E; [left; apply was_seen_In, E|right; intros H; apply was_seen_In in H; congruence].
Qed.
Lemma pstep_inv s : pinv s ->
  exists cs ds, primary_candidates lower p limits input s = Ok (cs, ds) /\
  (forall t, In t cs -> candidate (s_pos s) t) /\
  exists r, primary_step lower upper p indications limits input s = Ok r /\
    match r with
    | PGo s' => pinv s' /\ pmeasure s' < pmeasure s /\
        exists t len, s_out s' = s_out s ++ indicated indications s ++ [t] /\ choice s cs t len /\
          r_length t = len /\ s_pos s' = s_pos s + len
    | PStop out => s_pos s = n /\ out = s_out s ++ indicated indications s /\
        (forall u, In u cs -> In (subset_of u) (s_seen s)) /\
        nocross_candidates lower p limits (s_rest s) (s_prev s) (s_pos s) = []
    end.
Proof.
  intros PI. destruct (candidates_ok s PI) as (cs & ds & EC & PD & CC). exists cs, ds. split; [exact EC|]. split; [exact CC|].
  destruct (indicated_front s PI) as (FR & CV & EV & FI).
  unfold primary_step. rewrite EC. cbn [bind].
  set (out := s_out s ++ indicated indications s) in *.
  pose proof (max_weight_spec (nocross_candidates lower p limits (s_rest s) (s_prev s) (s_pos s))) as MN.
  pose proof (max_weight_spec (unseen (s_seen s) cs)) as MC.
  assert (LR : length (s_rest s) = n - s_pos s) by (rewrite (pi_rest s PI), skipn_length; reflexivity).
  (* cases *)
  destruct (max_weight (nocross_candidates lower p limits (s_rest s) (s_prev s) (s_pos s))) as [nc|] eqn:EN;
  destruct (max_weight (unseen (s_seen s) cs)) as [t|] eqn:EM.
  all: try (destruct (Nat.leb_spec (r_weight t) (r_weight nc)) as [WW|WW]).
  (* the rule is applied *)
  2,4: destruct MC as [MI MM]; apply unseen_In in MI; destruct MI as [MI MS]; pose proof (CC t MI) as CT;
    destruct CT as (T1 & T2 & T3 & T4 & T5);
    destruct (sets_only_apply t (s_env s) T4) as (e' & Ee); rewrite Ee; cbn [bind];
    (eexists; split; [reflexivity|]);
    destruct (adjust_case_fields (s_pos s) t) as (F1 & F2 & F3 & F4 & F5);
    assert (CH : choice s cs (adjust_case upper p limits (s_pos s) t) (r_length t))
      by (apply Ch_rule; auto;
          [intros u Hu Hs; apply MM, unseen_In; auto
          |first [intros u Hu; destruct MN as [_ MN]; specialize (MN u Hu); lia
                 |intros u Hu; rewrite MN in Hu; destruct Hu]]);
    assert (EV' : env_apply_all env_new (flat_map r_effects (out ++ [adjust_case upper p limits (s_pos s) t])) = Ok e')
      by (apply (env_piece (s_env s)); auto; rewrite F3; exact Ee);
    assert (CV' : cover (firstn (s_pos s + r_length t) input) (out ++ [adjust_case upper p limits (s_pos s) t]))
      by (apply cover_adjust; auto; unfold candidate; auto);
    assert (FI' : flat_map r_input (out ++ [adjust_case upper p limits (s_pos s) t]) = flat_map r_input (s_out s) ++ r_input t)
      by (rewrite flat_map_app, FI; cbn [flat_map]; rewrite app_nil_r, F2; reflexivity);
    (destruct (Nat.eqb_spec (r_length t) 0) as [Z|Z];
     [ split; [|split];
       [ constructor; cbn [s_rest s_delayed s_env s_prev s_seen s_pos s_last s_out]; auto;
         [ apply PI | apply PI
         | rewrite Z; rewrite <- (Nat.add_0_r (s_pos s)); apply pending_update, PD
         | constructor; [exact MS|apply PI]
         | intros y [<-|Hy]; [auto|apply (pi_seen s PI), Hy]
         | rewrite Z, Nat.add_0_r in CV'; exact CV'
         | rewrite FI'; destruct (r_input t); [rewrite app_nil_r; apply PI|simpl in T2; lia]
         | unfold fresh; cbn [s_last s_pos]; rewrite Nat.eqb_refl; cbn [negb]; apply F_insert; [exact FR|rewrite F1; exact Z] ]
       | unfold pmeasure; cbn [s_rest s_seen length];
         assert (B : length (subset_of t :: s_seen s) <= K)
           by (apply NoDup_incl_length; [constructor; [exact MS|apply PI]|];
               intros y [<-|Hy]; [auto|apply (pi_seen s PI), Hy]);
         cbn [length] in B; lia
       | eexists; eexists; split; [cbn [s_out]; unfold out; rewrite <- app_assoc; reflexivity|];
         split; [exact CH|]; split; [exact F1|cbn [s_pos]; lia] ]
     | split; [|split];
       [ constructor; cbn [s_rest s_delayed s_env s_prev s_seen s_pos s_last s_out]; auto;
         [ rewrite (pi_rest s PI), skipn_skipn'; reflexivity
         | apply pending_update, PD
         | constructor
         | intros y []
         | rewrite FI', last_char_app; [reflexivity|intros H0; rewrite H0 in T2; simpl in T2; lia]
         | lia
         | unfold fresh; cbn [s_last s_pos]; destruct (Nat.eqb_spec (s_pos s) (s_pos s + r_length t)); [lia|];
           cbn [negb]; rewrite <- F1; apply F_piece; [exact FR|rewrite F1; lia] ]
       | unfold pmeasure; cbn [s_rest s_seen]; rewrite skipn_length, LR; cbn [length]; unfold char in *;
         assert (EQ : n - s_pos s = n - s_pos s - r_length t + r_length t) by lia;
         rewrite EQ at 2; nia
       | eexists; eexists; split; [cbn [s_out]; unfold out; rewrite <- app_assoc; reflexivity|];
         split; [exact CH|]; split; [exact F1|reflexivity] ] ]).
  (* a nocross rule *)
  1,2: destruct MN as [NI NM]; destruct (nocross_ok s PI nc NI) as (CT & O0 & L1 & EE);
    destruct CT as (T1 & T2 & T3 & T4 & T5);
    destruct (Nat.eqb_spec (r_length nc) 0) as [Z|Z]; [lia|];
    destruct (adjust_case_fields (s_pos s) nc) as (F1 & F2 & F3 & F4 & F5);
    (eexists; split; [reflexivity|]);
    assert (CH : choice s cs (adjust_case upper p limits (s_pos s) nc) (r_length nc))
      by (apply Ch_nocross; auto;
          first [intros u Hu Hs; assert (Hu' : In u (unseen (s_seen s) cs)) by (apply unseen_In; auto);
                 destruct MC as [_ MC]; specialize (MC u Hu'); lia
                |intros u Hu Hs; assert (Hu' : In u (unseen (s_seen s) cs)) by (apply unseen_In; auto);
                 rewrite MC in Hu'; destruct Hu']);
    assert (EV' : env_apply_all env_new (flat_map r_effects (out ++ [adjust_case upper p limits (s_pos s) nc])) = Ok (s_env s))
      by (apply (env_piece (s_env s)); auto; rewrite F3, EE; reflexivity);
    assert (CV' : cover (firstn (s_pos s + r_length nc) input) (out ++ [adjust_case upper p limits (s_pos s) nc]))
      by (apply cover_adjust; auto; unfold candidate; auto);
    assert (FI' : flat_map r_input (out ++ [adjust_case upper p limits (s_pos s) nc]) = flat_map r_input (s_out s) ++ r_input nc)
      by (rewrite flat_map_app, FI; cbn [flat_map]; rewrite app_nil_r, F2; reflexivity);
    (split; [|split];
       [ constructor; cbn [s_rest s_delayed s_env s_prev s_seen s_pos s_last s_out]; auto;
         [ rewrite (pi_rest s PI), skipn_skipn'; reflexivity
         | apply pending_update, PD
         | apply PI
         | apply PI
         | rewrite FI', last_char_app; [reflexivity|intros H0; rewrite H0 in T2; simpl in T2; lia]
         | lia
         | unfold fresh; cbn [s_last s_pos]; destruct (Nat.eqb_spec (s_pos s) (s_pos s + r_length nc)); [lia|];
           cbn [negb]; rewrite <- F1; apply F_piece; [exact FR|rewrite F1; lia] ]
       | unfold pmeasure; cbn [s_rest s_seen]; rewrite skipn_length, LR; unfold char in *;
         assert (EQ : n - s_pos s = n - s_pos s - r_length nc + r_length nc) by lia;
         rewrite EQ at 2; nia
       | eexists; eexists; split; [cbn [s_out]; unfold out; rewrite <- app_assoc; reflexivity|];
         split; [exact CH|]; split; [exact F1|reflexivity] ]).
  (* no rule *)
  assert (NS : forall u, In u cs -> In (subset_of u) (s_seen s)).
  { intros u Hu. destruct (seen_or (s_seen s) u) as [H|H]; [exact H|]. exfalso.
    assert (Hu' : In u (unseen (s_seen s) cs)) by (apply unseen_In; auto). rewrite MC in Hu'. destruct Hu'. }
  destruct (s_rest s) as [|c r] eqn:Er.
  - eexists. split; [reflexivity|]. split; [|auto]. simpl in LR. pose proof (pi_pos s PI). unfold char in *. lia.
  - destruct (fallback_ok' c) as (t & Et & T0 & T1 & T2 & T3). rewrite Et. cbn [bind].
    eexists. split; [reflexivity|].
    assert (SK : skipn (s_pos s) input = c :: r) by (rewrite <- (pi_rest s PI); exact Er).
    assert (LE : S (s_pos s) <= n) by (simpl in LR; unfold char in *; lia).
    assert (CT : candidate (s_pos s) t) by (apply (char_candidate (s_pos s) c r); [exact SK|split; auto]).
    assert (CV' : cover (firstn (S (s_pos s)) input) (out ++ [t])).
    { replace (S (s_pos s)) with (s_pos s + r_length t) by lia. apply piece_fits; auto. }
    split; [|split].
    + constructor; cbn [s_rest s_delayed s_env s_prev s_seen s_pos s_last s_out]; auto; try apply PI.
      * replace (S (s_pos s)) with (s_pos s + 1) by lia. rewrite <- skipn_skipn', SK. reflexivity.
      * replace (S (s_pos s)) with (s_pos s + 1) by lia. apply pending_update, PD.
      * apply (env_piece (s_env s)); auto. rewrite T3. reflexivity.
      * rewrite flat_map_app. cbn [flat_map]. rewrite app_nil_r, last_char_app by (rewrite T2; discriminate). rewrite T2. reflexivity.
      * unfold fresh. cbn [s_last s_pos]. destruct (Nat.eqb_spec (s_pos s) (S (s_pos s))); [lia|]. cbn [negb].
        replace (S (s_pos s)) with (s_pos s + r_length t) by lia. apply F_piece; [exact FR|lia].
    + unfold pmeasure. cbn [s_rest s_seen]. rewrite Er. cbn [length]. lia.
    + exists t, 1. split; [cbn [s_out]; unfold out; rewrite <- app_assoc; reflexivity|].
      split; [|split; [exact T1|cbn [s_pos]; lia]]. rewrite <- Er in MN. eapply Ch_fallback; eauto.
Qed.
End Main.
