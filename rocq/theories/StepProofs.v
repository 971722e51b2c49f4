(** The loop of the main pass makes a derivation. *)
From Verif Require Import Base BaseProofs RuleModel TranslationModel TranslationProofs TableModel RegexpModel
  RegexpSpec RegexpCorrect PatternModel MatchProofs TrieModel BrailleModel LoopModel LoopProofs MultipassProofs
  PrimaryProofs PrimaryTrace MainSpec.

Definition table_sources (lower : char -> list char) (p : ptable) : sources := mk_sources
  (fun rest prev u => In u (find_translations lower (p_trie p) rest prev))
  (fun rest prev u => In u (find_translations lower (p_nocross p) rest prev))
  (fun rest prev u => In u (find_translations lower (p_comp6 p) rest prev))
  (fun b rest u => exists l, cpats_find lower (p_match p) env_new b rest = Ok l /\ In u l)
  (fun e b rest u => exists l, cpats_find lower (p_context p) e b rest = Ok l /\ In u l)
  (fun c u => assoc c (p_digits p) = Some u)
  (fun c u => fallback_piece p c = Ok u).

(** ** Lists of steps *)
Lemma reached_app a b : reached (a ++ b) = reached a + reached b.
Proof. unfold reached. rewrite map_app, list_sum_app. reflexivity. Qed.
Lemma reached_one x : reached [x] = r_length (snd x).
Proof. unfold reached. simpl. lia. Qed.
Lemma reached_cons x a : reached (x :: a) = r_length (snd x) + reached a.
Proof. reflexivity. Qed.
Lemma inserted_snoc a x : inserted (a ++ [x]) = insert_step (inserted a) x.
Proof. unfold inserted. rewrite fold_left_app. reflexivity. Qed.
Lemma moved_snoc a x : moved (a ++ [x]) <-> 0 < r_length (snd x).
Proof.
  split; [|intros H; exists a, x; auto]. intros (b & y & E & H). apply app_inj_tail in E. destruct E as [_ ->]. exact H.
Qed.
Lemma moved_nil : ~ moved [].
Proof. intros (b & y & E & _). destruct b; discriminate. Qed.
Lemma variables_unique a e e' : variables a e -> variables a e' -> e = e'.
Proof. unfold variables. intros H H'. rewrite H in H'. injection H' as ->. reflexivity. Qed.
(** whether the next piece is the first at its position *)
Fixpoint first_after (first : bool) (a : list step) : bool :=
  match a with [] => first | x :: r => first_after (Nat.ltb 0 (r_length (snd x))) r end.
Lemma first_after_snoc a : forall f x, first_after f (a ++ [x]) = Nat.ltb 0 (r_length (snd x)).
Proof. induction a as [|y a IH]; intros f x; [reflexivity|]. cbn [app first_after]. apply IH. Qed.

Section Body.
Variable upper : char -> list char.
Variable d : direction.
Variable limits : pos_flags.
Variable indications : list (list resolved).
Notation written := (written upper d limits indications).
Notation shown := (shown upper d limits).
Fixpoint body (pos : nat) (first : bool) (ts : list step) : list resolved :=
  match ts with
  | [] => []
  | x :: r => (if first then nth pos indications [] else []) ++
              shown pos x :: body (pos + r_length (snd x)) (Nat.ltb 0 (r_length (snd x))) r
  end.
Lemma written_body ts : forall pos first, written pos first ts =
  body pos first ts ++ (if first_after first ts then nth (pos + reached ts) indications [] else []).
Proof.
  induction ts as [|x r IH]; intros pos first.
  - cbn [MainSpec.written body first_after app]. rewrite app_nil_r, Nat.add_0_r. reflexivity.
  - cbn [MainSpec.written body first_after app]. rewrite <- app_assoc. cbn [app]. rewrite IH.
    rewrite reached_cons, Nat.add_assoc. reflexivity.
Qed.
Lemma body_snoc a : forall pos first x, body pos first (a ++ [x]) =
  body pos first a ++ (if first_after first a then nth (pos + reached a) indications [] else []) ++
  [shown (pos + reached a) x].
Proof.
  induction a as [|y a IH]; intros pos first x.
  - cbn [app body first_after]. rewrite Nat.add_0_r. reflexivity.
  - cbn [app body first_after]. rewrite IH, <- app_assoc. cbn [app].
    rewrite reached_cons, !Nat.add_assoc. reflexivity.
Qed.
End Body.

Section Main.
Variable lower upper : char -> list char.
Variable p : ptable.
Variable indications : list (list resolved).
Variable limits : pos_flags.
Variable input : str.
Hypothesis P : table_ok lower p.
Hypothesis I : indications_ok indications.
Notation n := (length input).
Notation step := (primary_step lower upper p indications limits input).
Notation pinv := (pinv lower p indications input).
Notation reach := (reach lower upper p indications limits input).
Notation candidates := (primary_candidates lower p limits input).
Notation ind := (indicated indications).
Notation src := (table_sources lower p).
Notation available := (available src (p_dir p) limits input).
Notation nocross_available := (nocross_available src limits input).
Notation found := (found src input).
Notation best := (best src (p_dir p) limits input).
Notation derivation := (derivation src (p_dir p) limits input).
Notation body := (body upper (p_dir p) limits indications).
Notation shown := (shown upper (p_dir p) limits).

(** an offer waiting for its position *)
Definition waiting (a : list MainSpec.step) (u : resolved) : Prop :=
  exists b c v, a = b ++ c /\ c <> [] /\ found b v /\ 0 < r_offset v /\ reached c <= r_offset v /\
    (moved c \/ reached c < r_offset v) /\ u = with_offset v (r_offset v - reached c).
Record tracks (s : pstate) (a : list MainSpec.step) : Prop := mk_tracks {
  tr_inv : pinv s;
  tr_pos : s_pos s = reached a;
  tr_prev : s_prev s = previous a;
  tr_env : variables a (s_env s);
  tr_seen : s_seen s = inserted a;
  tr_fresh : fresh s = first_after true a;
  tr_out : s_out s = body 0 true a;
  tr_delayed : forall u, In u (s_delayed s) <-> waiting a u }.

Lemma tracks_left s a : tracks s a -> s_rest s = left input a.
Proof. intros T. unfold left. rewrite <- (tr_pos s a T). apply (pi_rest _ _ _ _ _ (tr_inv s a T)). Qed.
Lemma tracks_found s a u : tracks s a -> found a u <->
  (exists l, cpats_find lower (p_match p) env_new (Nat.eqb (s_pos s) 0) (s_rest s) = Ok l /\ In u l) \/
  (exists l, cpats_find lower (p_context p) (s_env s) (Nat.eqb (s_pos s) 0) (s_rest s) = Ok l /\ In u l).
Proof.
  intros T. rewrite (tracks_left s a T), (tr_pos s a T). unfold MainSpec.found. cbn [by_match by_context table_sources].
  split.
  - intros [H|(e & V & H)]; [auto|]. right. rewrite (variables_unique a _ _ (tr_env s a T) V). exact H.
  - intros [H|H]; [auto|]. right. exists (s_env s). split; [apply T|exact H].
Qed.
Lemma zero_offset u : r_offset u = 0 -> with_offset u 0 = u.
Proof. intros H. rewrite <- H. apply with_offset_id. Qed.
Lemma tracks_offers s a u : tracks s a -> PrimaryTrace.offers lower p s u <-> offers src input a u.
Proof.
  intros T. unfold PrimaryTrace.offers, offers.
  assert (F := tracks_found s a u T).
  rewrite (tracks_left s a T), (tr_prev s a T). cbn [by_text table_sources]. rewrite (tracks_left s a T) in F.
  assert (K : In u (s_delayed s) /\ r_offset u = 0 <-> kept src input a u).
  { rewrite (tr_delayed s a T). unfold waiting, kept. split.
    - intros [(b & c & v & E & NE & H1 & H2 & H3 & H4 & ->) Z]. cbn [with_offset r_offset] in Z.
      assert (R : reached c = r_offset v) by lia. exists b, c, v. split; [exact E|]. split; [exact H1|]. split; [exact H2|]. split; [exact R|].
      split; [destruct H4 as [H4|H4]; [exact H4|lia]|]. rewrite R, Nat.sub_diag. reflexivity.
    - intros (b & c & v & E & H1 & H2 & H3 & H4 & ->). split; [|reflexivity].
      exists b, c, v. rewrite H3, Nat.sub_diag. split; [exact E|]. split; [intros ->; exact (moved_nil H4)|].
      split; [exact H1|]. split; [exact H2|]. split; [lia|]. split; [left; exact H4|reflexivity]. }
  split.
  - intros [H|[(l & E & H & Z)|[(l & E & H & Z)|H]]]; auto.
    + right. left. split; [|exact Z]. apply F. left. eauto.
    + right. left. split; [|exact Z]. apply F. right. eauto.
    + right. right. apply K, H.
  - intros [H|[[H Z]|H]]; auto.
    + apply F in H. destruct H as [(l & E & H)|(l & E & H)]; [right; left; eauto|right; right; left; eauto].
    + right. right. right. apply K, H.
Qed.
Lemma tracks_digit s a u : tracks s a -> digit_reading p limits s = Some u <-> digit src (p_dir p) limits input a u.
Proof.
  intros T. unfold digit_reading, digit. rewrite (tracks_left s a T), (tr_pos s a T). cbn [as_digit table_sources].
  destruct (p_dir p); [split; [discriminate|intros ([=] & _)]|].
  destruct (flag_at k_digit limits (reached a)); [|split; [discriminate|intros (_ & [=] & _)]].
  destruct (left input a) as [|c r]; [split; [discriminate|intros (_ & _ & c & r & [=] & _)]|].
  split; [intros H; split; [reflexivity|]; split; [reflexivity|]; eauto|].
  intros (_ & _ & c' & r' & [= <- <-] & H). exact H.
Qed.
Lemma tracks_available s a cs ds u : tracks s a -> candidates s = Ok (cs, ds) -> In u cs <-> available a u.
Proof.
  intros T E. rewrite (candidates_exact lower p indications limits input P s cs ds (tr_inv s a T) E u).
  unfold MainSpec.available. rewrite (tr_pos s a T), (tr_prev s a T), (tracks_left s a T). cbn [by_comp6 table_sources].
  destruct (flag_at k_comp6 limits (reached a)); [reflexivity|].
  rewrite (tracks_offers s a u T), (tracks_digit s a u T).
  assert (Q : digit_reading p limits s <> None <-> exists v, digit src (p_dir p) limits input a v).
  { split.
    - intros H. destruct (digit_reading p limits s) as [v|] eqn:Ev; [|congruence]. exists v. apply (tracks_digit s a v T), Ev.
    - intros (v & H). apply (tracks_digit s a v T) in H. rewrite H. discriminate. }
  rewrite Q. reflexivity.
Qed.
Lemma tracks_delayed s a cs ds u : tracks s a -> candidates s = Ok (cs, ds) ->
  In u ds <-> (waiting a u \/ found a u) /\ r_offset u <> 0.
Proof.
  intros T E. rewrite (tracks_found s a u T), <- (tr_delayed s a T). revert E. unfold primary_candidates.
  pose proof (tr_inv s a T) as PI. pose proof (pi_rest _ _ _ _ _ PI) as P2. pose proof (pi_pos _ _ _ _ _ PI) as P1.
  assert (BL : Nat.eqb (blen (s_rest s)) (blen input) = Nat.eqb (s_pos s) 0) by (rewrite P2; apply blen_skipn, P1).
  rewrite BL. unfold match_find.
  destruct (cpats_find lower (p_match p) env_new (Nat.eqb (s_pos s) 0) (s_rest s)) as [ms| |] eqn:Em; try discriminate. cbn [bind].
  destruct (cpats_find lower (p_context p) (s_env s) (Nat.eqb (s_pos s) 0) (s_rest s)) as [xs| |] eqn:Ex; try discriminate. cbn [bind].
  intros [= _ <-]. rewrite later_In, !in_app_iff, !later_In.
  assert (NT : ~ (In u (find_translations lower (p_trie p) (s_rest s) (s_prev s)) /\ r_offset u <> 0)).
  { intros [H Z]. apply (ok_trie _ _ P) in H. apply Z, H. }
  split.
  - intros [[H|[H|[[H _]|[H _]]]] Z]; [auto|contradiction|split; [|exact Z]; right; left; eauto|split; [|exact Z]; right; right; eauto].
  - intros [[H|[(l & [= <-] & H)|(l & [= <-] & H)]] Z]; tauto.
Qed.
Lemma tracks_nocross s a u : tracks s a ->
  In u (nocross_candidates lower p limits (s_rest s) (s_prev s) (s_pos s)) <-> nocross_available a u.
Proof.
  intros T. unfold nocross_candidates, MainSpec.nocross_available.
  rewrite filter_In, (tr_pos s a T), (tr_prev s a T), (tracks_left s a T). cbn [by_nocross table_sources].
  assert (Q : negb (crosses_break limits (reached a) u) = true <->
    forall q, reached a <= q -> S q < reached a + r_length u -> flag_at k_break limits q = false).
  { rewrite negb_true_iff. unfold crosses_break. split.
    - intros H q H1 H2. destruct (flag_at k_break limits q) eqn:F; [|reflexivity].
      assert (X : existsb (flag_at k_break limits) (List.seq (reached a) (r_length u - 1)) = true).
      { apply existsb_exists. exists q. split; [apply in_seq; lia|exact F]. }
      congruence.
    - intros H. destruct (existsb _ _) eqn:X; [|reflexivity]. apply existsb_exists in X. destruct X as (q & Hq & F).
      apply in_seq in Hq. rewrite (H q) in F; [discriminate|lia|lia]. }
  rewrite Q. reflexivity.
Qed.

(** ** Waiting offers *)
Lemma waiting_snoc a x u :
  waiting (a ++ [x]) u <->
  exists v, (waiting a v \/ found a v) /\ r_offset v <> 0 /\ r_length (snd x) <= r_offset v /\
            u = with_offset v (r_offset v - r_length (snd x)).
Proof.
  unfold waiting. split.
  - intros (b & c & v & E & NE & H1 & H2 & H3 & H4 & ->).
    destruct (exists_last NE) as (c' & y & Ec). subst c. rewrite app_assoc in E. apply app_inj_tail in E. destruct E as [E ->].
    rewrite reached_app, reached_one in *. rewrite moved_snoc in H4.
    destruct c' as [|z c'].
    + exists v. rewrite app_nil_r in E. subst b. cbn [reached map list_sum fold_right plus] in *.
      split; [right; exact H1|]. split; [lia|]. split; [unfold reached in H3; cbn in H3; lia|]. reflexivity.
    + exists (with_offset v (r_offset v - reached (z :: c'))). split.
      * left. exists b, (z :: c'), v. split; [exact E|]. split; [discriminate|]. split; [exact H1|]. split; [exact H2|].
        split; [lia|]. split; [right; lia|reflexivity].
      * cbn [with_offset r_offset]. split; [lia|]. split; [lia|].
        rewrite Nat.sub_add_distr. reflexivity.
  - intros (v & [(b & c & w & E & NE & H1 & H2 & H3 & H4 & ->)|F] & Z & L & ->).
    + exists b, (c ++ [x]), w. cbn [with_offset r_offset] in *. rewrite reached_app, reached_one, app_assoc, moved_snoc.
      split; [rewrite E; reflexivity|]. split; [destruct c; discriminate|]. split; [exact H1|]. split; [exact H2|].
      split; [lia|]. split; [destruct (Nat.eq_dec (r_length (snd x)) 0); [right; lia|left; lia]|].
      rewrite Nat.sub_add_distr. reflexivity.
    + exists a, [x], v. rewrite reached_one, (moved_snoc [] x). split; [reflexivity|]. split; [discriminate|].
      split; [exact F|]. split; [lia|]. split; [exact L|]. split; [destruct (Nat.eq_dec (r_length (snd x)) 0); [right; lia|left; lia]|].
      reflexivity.
Qed.
Lemma delayed_snoc s a x cs ds : tracks s a -> candidates s = Ok (cs, ds) ->
  forall u, In u (update_offsets ds (r_length (snd x))) <-> waiting (a ++ [x]) u.
Proof.
  intros T E u. rewrite update_offsets_In, waiting_snoc. split.
  - intros (v & H & L & ->). apply (tracks_delayed s a cs ds v T E) in H. exists v. tauto.
  - intros (v & H & Z & L & ->). exists v. rewrite (tracks_delayed s a cs ds v T E). tauto.
Qed.

Lemma indicated_lead s a : tracks s a ->
  ind s = if first_after true a then nth (reached a) indications [] else [].
Proof.
  intros T. rewrite <- (tr_fresh s a T), <- (tr_pos s a T). unfold indicated, fresh.
  destruct (s_last s) as [q|]; [destruct (Nat.eqb q (s_pos s)); reflexivity|reflexivity].
Qed.
Lemma shown_adjust pos h t : h <> ByFallback -> shown pos (h, t) = adjust_case upper p limits pos t.
Proof. destruct h; [reflexivity|reflexivity|congruence]. Qed.
Lemma previous_snoc a x : r_input (snd x) <> [] -> previous (a ++ [x]) = last_char (r_input (snd x)).
Proof.
  intros H. unfold previous. rewrite flat_map_app. cbn [flat_map]. rewrite app_nil_r. apply last_char_app, H.
Qed.
Lemma previous_empty a x : r_input (snd x) = [] -> previous (a ++ [x]) = previous a.
Proof. intros H. unfold previous. rewrite flat_map_app. cbn [flat_map]. rewrite H, !app_nil_r. reflexivity. Qed.
Lemma variables_snoc a x e e' : variables a e -> env_apply_all e (r_effects (snd x)) = Ok e' -> variables (a ++ [x]) e'.
Proof.
  unfold variables. intros H H'. rewrite flat_map_app, (env_apply_all_app _ _ _ _ H). cbn [flat_map]. rewrite app_nil_r. exact H'.
Qed.

(** ** A step *)
Lemma best_nocross s a cs ds nc : tracks s a -> candidates s = Ok (cs, ds) ->
  max_weight (nocross_candidates lower p limits (s_rest s) (s_prev s) (s_pos s)) = Some nc ->
  (forall u, In u (unseen (s_seen s) cs) -> r_weight u <= r_weight nc) -> best a (ByNocross, nc).
Proof.
  intros T E M H. pose proof (max_weight_spec (nocross_candidates lower p limits (s_rest s) (s_prev s) (s_pos s))) as MS.
  rewrite M in MS. destruct MS as [MI MM]. cbn [MainSpec.best]. split; [apply (tracks_nocross s a nc T), MI|].
  split; [intros u Hu; apply MM, (tracks_nocross s a u T), Hu|].
  intros u Hu Hn. apply H, unseen_In. split; [apply (tracks_available s a cs ds u T E), Hu|].
  unfold new in Hn. rewrite (tr_seen s a T). exact Hn.
Qed.
Lemma best_rule s a cs ds t : tracks s a -> candidates s = Ok (cs, ds) ->
  max_weight (unseen (s_seen s) cs) = Some t ->
  (forall u, In u (nocross_candidates lower p limits (s_rest s) (s_prev s) (s_pos s)) -> r_weight u < r_weight t) ->
  best a (ByRule, t) /\ In t cs /\ ~ In (subset_of t) (s_seen s).
Proof.
  intros T E M H. pose proof (max_weight_spec (unseen (s_seen s) cs)) as MS. rewrite M in MS. destruct MS as [MI MM].
  apply unseen_In in MI. destruct MI as [MI MN]. split; [|auto]. cbn [MainSpec.best].
  split; [apply (tracks_available s a cs ds t T E), MI|]. unfold new. rewrite <- (tr_seen s a T). split; [exact MN|].
  split.
  - intros u Hu Hn. apply MM, unseen_In. split; [apply (tracks_available s a cs ds u T E), Hu|exact Hn].
  - intros u Hu. apply H, (tracks_nocross s a u T), Hu.
Qed.
Lemma none_left s a cs ds : tracks s a -> candidates s = Ok (cs, ds) ->
  max_weight (unseen (s_seen s) cs) = None ->
  max_weight (nocross_candidates lower p limits (s_rest s) (s_prev s) (s_pos s)) = None ->
  (forall u, available a u -> ~ new a u) /\ (forall u, ~ nocross_available a u).
Proof.
  intros T E M N. apply max_weight_none in M, N. split.
  - intros u Hu Hn. unfold new in Hn. rewrite <- (tr_seen s a T) in Hn.
    assert (X : In u (unseen (s_seen s) cs)) by (apply unseen_In; split; [apply (tracks_available s a cs ds u T E), Hu|exact Hn]).
    rewrite M in X. destruct X.
  - intros u Hu. apply (tracks_nocross s a u T) in Hu. rewrite N in Hu. destruct Hu.
Qed.
Lemma out_snoc s a x : tracks s a ->
  (s_out s ++ ind s) ++ [shown (s_pos s) x] = body 0 true (a ++ [x]).
Proof.
  intros T. rewrite body_snoc, (indicated_lead s a T), (tr_out s a T), (tr_pos s a T). cbn [plus]. rewrite <- app_assoc. reflexivity.
Qed.
Lemma fresh_moved s pos : s_last s = Some pos -> forall l, s_pos s = pos + l -> fresh s = Nat.ltb 0 l.
Proof.
  intros H l E. unfold fresh. rewrite H, E. destruct l as [|l]; [rewrite Nat.add_0_r, Nat.eqb_refl; reflexivity|].
  destruct (Nat.eqb_spec pos (pos + S l)); [lia|reflexivity].
Qed.
Lemma tracks_step s a s' : tracks s a -> step s = Ok (PGo s') -> exists x, best a x /\ tracks s' (a ++ [x]).
Proof.
  intros T ES. pose proof (tr_inv s a T) as PI.
  destruct (pstep_inv lower upper p indications limits input P I s PI) as (cs & ds & EC & CC & r & Er & H).
  rewrite ES in Er. injection Er as <-. destruct H as (PI' & _ & _).
  assert (GO : forall x l,
      best a x -> r_length (snd x) = l ->
      s_pos s' = s_pos s + l -> s_last s' = Some (s_pos s) ->
      s_prev s' = previous (a ++ [x]) -> variables (a ++ [x]) (s_env s') ->
      s_seen s' = insert_step (inserted a) x ->
      s_out s' = (s_out s ++ ind s) ++ [shown (s_pos s) x] ->
      s_delayed s' = update_offsets ds l ->
      exists x, best a x /\ tracks s' (a ++ [x])).
  { intros x l B El Ep Elast Epr Ev Es Eo Ed. exists x. split; [exact B|]. constructor.
    - exact PI'.
    - rewrite Ep, (tr_pos s a T), reached_app, reached_one, El. reflexivity.
    - exact Epr.
    - exact Ev.
    - rewrite Es, inserted_snoc. reflexivity.
    - rewrite first_after_snoc, El. apply (fresh_moved s' (s_pos s)); auto.
    - rewrite Eo. apply out_snoc, T.
    - intros u. rewrite Ed, <- El. eapply delayed_snoc; eauto. }
  revert ES. unfold primary_step. rewrite EC. cbn [bind].
  pose proof (max_weight_spec (nocross_candidates lower p limits (s_rest s) (s_prev s) (s_pos s))) as MN.
  pose proof (max_weight_spec (unseen (s_seen s) cs)) as MC.
  assert (RULE : forall t, max_weight (unseen (s_seen s) cs) = Some t ->
      (forall u, In u (nocross_candidates lower p limits (s_rest s) (s_prev s) (s_pos s)) -> r_weight u < r_weight t) ->
      (do e <- env_apply_all (s_env s) (r_effects t);
       Ok (PGo (if Nat.eqb (r_length t) 0
               then mk_pstate (s_rest s) (update_offsets ds (r_length t)) e (s_prev s)
                      (subset_of t :: s_seen s) (s_pos s) (Some (s_pos s)) ((s_out s ++ ind s) ++ [adjust_case upper p limits (s_pos s) t])
               else mk_pstate (skipn (r_length t) (s_rest s)) (update_offsets ds (r_length t)) e
                      (last_char (r_input t)) [] (s_pos s + r_length t) (Some (s_pos s))
                      ((s_out s ++ ind s) ++ [adjust_case upper p limits (s_pos s) t])))) = Ok (PGo s') ->
      exists x, best a x /\ tracks s' (a ++ [x])).
  { intros t M H. destruct (best_rule s a cs ds t T EC M H) as (B & HI & HN).
    destruct (env_apply_all (s_env s) (r_effects t)) as [e| |] eqn:Ee; try discriminate. cbn [bind].
    destruct (CC t HI) as (C1 & C2 & _).
    destruct (Nat.eqb_spec (r_length t) 0) as [Z|Z]; intros [= <-];
      apply (GO (ByRule, t) (r_length t) B eq_refl); cbn [s_pos s_last s_prev s_env s_seen s_out s_delayed snd insert_step]; auto.
    - lia.
    - rewrite previous_empty; [apply (tr_prev s a T)|]. cbn [snd]. destruct (r_input t); [reflexivity|simpl in C2; lia].
    - eapply variables_snoc; [apply (tr_env s a T)|exact Ee].
    - rewrite Z, <- (tr_seen s a T). reflexivity.
    - rewrite previous_snoc; [reflexivity|]. cbn [snd]. intros H0. rewrite H0 in C2. simpl in C2. lia.
    - eapply variables_snoc; [apply (tr_env s a T)|exact Ee].
    - destruct (Nat.eqb_spec (r_length t) 0); [lia|reflexivity]. }
  assert (NOC : forall nc, max_weight (nocross_candidates lower p limits (s_rest s) (s_prev s) (s_pos s)) = Some nc ->
      (forall u, In u (unseen (s_seen s) cs) -> r_weight u <= r_weight nc) ->
      (if Nat.eqb (r_length nc) 0 then Panic
      else Ok (PGo (mk_pstate (skipn (r_length nc) (s_rest s)) (update_offsets ds (r_length nc))
                     (s_env s) (last_char (r_input nc)) (s_seen s) (s_pos s + r_length nc) (Some (s_pos s))
                     ((s_out s ++ ind s) ++ [adjust_case upper p limits (s_pos s) nc])))) = Ok (PGo s') ->
      exists x, best a x /\ tracks s' (a ++ [x])).
  { intros nc M H. pose proof (best_nocross s a cs ds nc T EC M H) as B.
    assert (HI : In nc (nocross_candidates lower p limits (s_rest s) (s_prev s) (s_pos s))) by (rewrite M in MN; apply MN).
    destruct (nocross_ok lower p indications limits input P s PI nc HI) as ((C1 & C2 & _) & _ & L1 & EF).
    destruct (Nat.eqb_spec (r_length nc) 0) as [Z|Z]; [lia|]. intros [= <-].
    apply (GO (ByNocross, nc) (r_length nc) B eq_refl); cbn [s_pos s_last s_prev s_env s_seen s_out s_delayed snd insert_step]; auto.
    - rewrite previous_snoc; [reflexivity|]. cbn [snd]. intros H0. rewrite H0 in C2. simpl in C2. lia.
    - eapply variables_snoc; [apply (tr_env s a T)|]. cbn [snd]. rewrite EF. reflexivity.
    - apply (tr_seen s a T). }
  destruct (max_weight (nocross_candidates lower p limits (s_rest s) (s_prev s) (s_pos s))) as [nc|] eqn:EN;
    destruct (max_weight (unseen (s_seen s) cs)) as [t|] eqn:EM.
  - destruct (Nat.leb_spec (r_weight t) (r_weight nc)) as [WW|WW].
    + apply NOC; [reflexivity|]. intros u Hu. destruct MC as [_ MC]. specialize (MC u Hu). lia.
    + apply RULE; [reflexivity|]. intros u Hu. destruct MN as [_ MN]. specialize (MN u Hu). lia.
  - apply NOC; [reflexivity|]. intros u Hu. rewrite MC in Hu. destruct Hu.
  - apply RULE; [reflexivity|]. intros u Hu. rewrite MN in Hu. destruct Hu.
  - destruct (none_left s a cs ds T EC EM EN) as [NA NN]. pose proof (tracks_left s a T) as TL.
    destruct (s_rest s) as [|c r] eqn:ER; [discriminate|].
    destruct (fallback_ok' lower p P c) as (t & Et & O0 & L1 & I1 & E1). rewrite Et. cbn [bind]. intros [= <-].
    assert (B : best a (ByFallback, t)) by (cbn [MainSpec.best]; split; [exists c, r; auto|auto]).
    apply (GO (ByFallback, t) 1 B L1); cbn [s_pos s_last s_prev s_env s_seen s_out s_delayed snd insert_step]; auto.
    + lia.
    + rewrite previous_snoc; cbn [snd]; rewrite I1; [reflexivity|discriminate].
    + eapply variables_snoc; [apply (tr_env s a T)|]. cbn [snd]. rewrite E1. reflexivity.
    + apply (tr_seen s a T).
Qed.
Lemma tracks_init : tracks (primary_init input) [].
Proof.
  constructor; cbn [primary_init s_rest s_delayed s_env s_prev s_seen s_pos s_last s_out]; try reflexivity.
  - apply init_inv.
  - intros u. split; [intros []|]. intros (b & c & v & E & NE & _). destruct b; [|discriminate]. simpl in E. congruence.
Qed.
Lemma reach_tracks s : reach s -> exists a, derivation a /\ tracks s a.
Proof.
  induction 1 as [|s s' R IH E]; [exists []; split; [constructor|apply tracks_init]|].
  destruct IH as (a & D & T). destruct (tracks_step s a s' T E) as (x & B & T'). exists (a ++ [x]). split; [constructor; auto|exact T'].
Qed.
Theorem run_derivation : exists out, primary_run lower upper p indications limits input = Ok out /\
  exists ts, derivation ts /\ finished src (p_dir p) limits input ts /\
    out = written upper (p_dir p) limits indications 0 true ts.
Proof.
  destruct (run_ok lower upper p indications limits input P I) as (out & sf & E & R & ES). exists out. split; [exact E|].
  destruct (reach_tracks sf R) as (a & D & T). exists a. split; [exact D|].
  pose proof (tr_inv sf a T) as PI.
  destruct (pstep_inv lower upper p indications limits input P I sf PI) as (cs & ds & EC & _ & r & Er & H).
  rewrite ES in Er. injection Er as <-. destruct H as (Hn & Eo & HN1 & HN2).
  split.
  - unfold finished. rewrite <- (tr_pos sf a T). split; [exact Hn|]. split.
    + intros u Hu Hn'. apply Hn'. rewrite <- (tr_seen sf a T). apply HN1, (tracks_available sf a cs ds u T EC), Hu.
    + intros u Hu. apply (tracks_nocross sf a u T) in Hu. rewrite HN2 in Hu. destruct Hu.
  - rewrite Eo, written_body, (tr_out sf a T), (indicated_lead sf a T). reflexivity.
Qed.
End Main.

(** ** Sources that offer the same *)
Section Same.
Variable A B : sources.
Hypothesis AB : same_sources A B.
Variable d : direction.
Variable limits : pos_flags.
Variable input : str.
Lemma same_found a u : found A input a u <-> found B input a u.
Proof.
  unfold found. rewrite (same_match _ _ AB). split; (intros [H|(e & V & H)]; [auto|right; exists e; split; [exact V|apply (same_context _ _ AB), H]]).
Qed.
Lemma same_offers a u : offers A input a u <-> offers B input a u.
Proof.
  unfold offers, kept. rewrite (same_text _ _ AB), same_found.
  split; (intros [H|[H|(b & c & v & H1 & H2 & H3)]]; [auto|auto|right; right; exists b, c, v; split; [exact H1|]; split; [apply same_found, H2|exact H3]]).
Qed.
Lemma same_digits a u : digit A d limits input a u <-> digit B d limits input a u.
Proof.
  unfold digit. split; (intros (H1 & H2 & c & r & H3 & H4); split; [exact H1|split; [exact H2|exists c, r; split; [exact H3|apply (same_digit _ _ AB), H4]]]).
Qed.
Lemma same_available a u : available A d limits input a u <-> available B d limits input a u.
Proof.
  unfold available. destruct (flag_at k_comp6 limits (reached a)); [apply (same_comp6 _ _ AB)|].
  rewrite same_offers, same_digits.
  assert (E : (exists v, digit A d limits input a v) <-> exists v, digit B d limits input a v)
    by (split; intros (v & H); exists v; apply same_digits, H).
  rewrite E. reflexivity.
Qed.
Lemma same_nocross_available a u : nocross_available A limits input a u <-> nocross_available B limits input a u.
Proof. unfold nocross_available. rewrite (same_nocross _ _ AB). reflexivity. Qed.
Lemma same_best a x : best A d limits input a x -> best B d limits input a x.
Proof.
  destruct x as [[| |] t]; cbn [best].
  - intros (H1 & H2 & H3). split; [apply same_nocross_available, H1|]. split.
    + intros u Hu. apply H2, same_nocross_available, Hu.
    + intros u Hu. apply H3, same_available, Hu.
  - intros (H1 & H2 & H3 & H4). split; [apply same_available, H1|]. split; [exact H2|]. split.
    + intros u Hu. apply H3, same_available, Hu.
    + intros u Hu. apply H4, same_nocross_available, Hu.
  - intros ((c & r & H1 & H2) & H3 & H4). split; [exists c, r; split; [exact H1|apply (same_character _ _ AB), H2]|]. split.
    + intros u Hu. apply H3, same_available, Hu.
    + intros u Hu. apply (H4 u), same_nocross_available, Hu.
Qed.
Lemma same_derivation a : derivation A d limits input a -> derivation B d limits input a.
Proof. induction 1; constructor; auto. apply same_best. assumption. Qed.
Lemma same_finished a : finished A d limits input a -> finished B d limits input a.
Proof.
  intros (H1 & H2 & H3). split; [exact H1|]. split.
  - intros u Hu. apply H2, same_available, Hu.
  - intros u Hu. apply (H3 u), same_nocross_available, Hu.
Qed.
End Same.
