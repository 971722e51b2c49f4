(** The loop of the multipass tables. *)
From Verif Require Import Base BaseProofs RuleModel TranslationModel TranslationProofs TableModel RegexpModel
  RegexpSpec RegexpCorrect PatternModel MatchProofs TrieModel LoopModel LoopProofs.

Lemma skipn_skipn' {A} (a b : nat) (l : list A) : skipn a (skipn b l) = skipn (b + a) l.
Proof.
  revert l. induction b as [|b IH]; intros l; simpl; [reflexivity|]. destruct l; [rewrite !skipn_nil; reflexivity|apply IH].
Qed.
Lemma firstn_skipn_add {A} (l : list A) a b : firstn (a + b) l = firstn a l ++ firstn b (skipn a l).
Proof.
  revert l. induction a as [|a IH]; intros l; simpl; [reflexivity|].
  destruct l as [|x l]; [rewrite firstn_nil; reflexivity|]. simpl. rewrite IH. reflexivity.
Qed.
Lemma blen_skipn input q : q <= length input -> Nat.eqb (blen (skipn q input)) (blen input) = Nat.eqb q 0.
Proof.
  intros H. rewrite <- (firstn_skipn q input) at 2. rewrite blen_app.
  destruct q as [|q]; simpl; [apply Nat.eqb_refl|]. destruct input as [|c input]; simpl in *; [lia|].
  apply Nat.eqb_neq. pose proof (len_utf8_pos c). lia.
Qed.

(** ** Offers found earlier and still pending *)
Section Pending.
Variable lower : char -> list char.
Variable input : str.
(** [t], offered for the cursor [pos], was found by pattern [p] of [ps] from the position
    [q] at or before it, with variables [e] *)
Definition pending (ps : list cpat) (pos : nat) (t : resolved) : Prop :=
  exists p q e o, In p ps /\ q <= pos /\ q + o = pos + r_offset t /\
    cpat_find lower p e (Nat.eqb q 0) (skipn q input) = Ok (Some (with_offset t o)).
Lemma with_offset_id t : with_offset t (r_offset t) = t.
Proof. destruct t; reflexivity. Qed.
Lemma with_offset_twice t a b : with_offset (with_offset t a) b = with_offset t b.
Proof. reflexivity. Qed.
Lemma pending_update ps pos l d : Forall (pending ps pos) l -> Forall (pending ps (pos + d)) (update_offsets l d).
Proof.
  rewrite !Forall_forall. intros H t Ht. apply update_offsets_In in Ht. destruct Ht as (u & Hu & Hd & ->).
  destruct (H u Hu) as (p & q & e & o & Hp & Hq & E & F). exists p, q, e, o.
  rewrite with_offset_twice. cbn [with_offset r_offset]. repeat split; auto; lia.
Qed.
Lemma cpats_find_pending ps e pos l : pos <= length input ->
  cpats_find lower ps e (Nat.eqb pos 0) (skipn pos input) = Ok l -> Forall (pending ps pos) l.
Proof.
  intros Hpos. assert (G : forall ps' l, incl ps' ps -> cpats_find lower ps' e (Nat.eqb pos 0) (skipn pos input) = Ok l ->
    Forall (pending ps pos) l).
  { induction ps' as [|p ps' IH]; cbn [cpats_find]; intros l' I E.
    - injection E as <-. constructor.
    - destruct (cpat_find lower p e _ _) as [o| |] eqn:Eo; try discriminate. cbn [bind] in E.
      destruct (cpats_find lower ps' e _ _) as [m| |] eqn:Em; try discriminate. cbn [bind] in E. injection E as <-.
      assert (X : Forall (pending ps pos) m) by (apply IH; auto; intros x Hx; apply I; right; exact Hx).
      destruct o as [t|]; [|exact X]. constructor; [|exact X].
      exists p, pos, e, (r_offset t). rewrite with_offset_id. repeat split; auto. apply I. left. reflexivity. }
  intros E. apply (G ps l); auto. intros x Hx. exact Hx.
Qed.
(** nothing but the offset depends on where the offer is looked at from *)
Lemma pending_offered sim (ok : cpat -> Prop) ps :
  (forall p e a rest n, ok p -> length rest <= n -> exists o, cpat_find lower p e a rest = Ok o /\
     forall t, o = Some t -> offered sim n [p] rest t) ->
  Forall ok ps -> forall pos t, pending ps pos t -> offered sim (length input) ps (skipn pos input) t.
Proof.
  intros H F pos t (p & q & e & o & Hp & Hq & E & Fd). rewrite Forall_forall in F.
  destruct (H p e (Nat.eqb q 0) (skipn q input) (length input) (F p Hp)) as (o' & Eo & Ho).
  { rewrite skipn_length. unfold char in *. lia. }
  rewrite Fd in Eo. injection Eo as <-. specialize (Ho _ eq_refl).
  apply (offered_incl sim _ [p] ps) in Ho; [|intros x [<-|[]]; exact Hp].
  apply (offered_skip sim _ _ _ _ (pos - q)) in Ho; [|cbn [with_offset r_offset]; lia].
  rewrite with_offset_twice in Ho. cbn [with_offset r_offset] in Ho.
  replace (o - (pos - q)) with (r_offset t) in Ho by lia. rewrite with_offset_id in Ho.
  rewrite skipn_skipn' in Ho. replace (q + (pos - q)) with pos in Ho by lia. exact Ho.
Qed.
End Pending.

Section Loop.
Variable lower : char -> list char.
Variable ps : list cpat.
Variable st : stage.
Variable input : str.
Hypothesis Hps : Forall rule_pattern ps.
Notation n := (length input).
Notation K := (length (universe n ps)).

(** a piece of the trace at position [pos] *)
Definition mpiece (pos : nat) (t : resolved) : Prop :=
  (exists c, t = resolved_new [c] [c] 1 st None) \/
  (r_origin t <> None /\ r_offset t = 0 /\ pending lower input ps pos t).
(** a list of pieces, the first of which stands at [pos] *)
Fixpoint mpieces (pos : nat) (l : list resolved) : Prop :=
  match l with
  | [] => True
  | t :: r => r_length t = length (r_input t) /\ mpiece pos t /\ mpieces (pos + r_length t) r
  end.
Definition total (l : list resolved) : nat := length (flat_map r_input l).
Lemma mpieces_app a : forall pos b, mpieces pos (a ++ b) <-> mpieces pos a /\ mpieces (pos + total a) b.
Proof.
  unfold total. induction a as [|t a IH]; intros pos b; cbn [app mpieces flat_map length].
  - rewrite Nat.add_0_r. tauto.
  - rewrite IH, app_length. split.
    + intros (A & B & C & D). rewrite A in *. repeat split; auto. rewrite Nat.add_assoc. exact D.
    + intros ((A & B & C) & D). rewrite A in *. rewrite Nat.add_assoc in D. repeat split; auto.
Qed.
(** no zero-width rule twice at a position *)
Definition once (l : list resolved) : Prop := forall a zs b, l = a ++ zs ++ b ->
  Forall (fun t => r_length t = 0) zs -> NoDup (map subset_of zs).
Definition trailing (l : list resolved) (seen : list subset) : Prop := forall a zs, l = a ++ zs ->
  Forall (fun t => r_length t = 0) zs -> incl (map subset_of zs) seen.

(** the zero-width replacements made since a rule last replaced some text *)
Definition recent (l : list resolved) : list subset :=
  fold_left (fun acc t => if Nat.eqb (r_length t) 0 then subset_of t :: acc
                          else match r_origin t with None => acc | Some _ => [] end) l [].
(** the offers at the place behind [a] that have not been taken there yet *)
Definition fresh_offer (a : list resolved) (u : resolved) : Prop :=
  exists e found, env_apply_all env_new (flat_map r_effects a) = Ok e /\
    cpats_find lower ps e (Nat.eqb (total a) 0) (skipn (total a) input) = Ok found /\
    In u found /\ r_offset u = 0 /\ ~ In (subset_of u) (recent a).
Definition best_after (a : list resolved) (t : resolved) : Prop :=
  forall u, fresh_offer a u -> r_origin t <> None /\ r_weight u <= r_weight t.
Definition all_best (l : list resolved) : Prop := forall a t b, l = a ++ t :: b -> best_after a t.
Lemma recent_snoc l t : recent (l ++ [t]) =
  if Nat.eqb (r_length t) 0 then subset_of t :: recent l
  else match r_origin t with None => recent l | Some _ => [] end.
Proof. unfold recent. rewrite fold_left_app. reflexivity. Qed.
Lemma env_apply_all_app a : forall e b e', env_apply_all e a = Ok e' ->
  env_apply_all e (a ++ b) = env_apply_all e' b.
Proof.
  induction a as [|f a IH]; cbn [app env_apply_all]; intros e b e' E; [injection E as <-; reflexivity|].
  destruct (env_apply e f) as [e1| |]; try discriminate. cbn [bind] in *. apply IH, E.
Qed.
Lemma all_best_snoc l t : all_best l -> best_after l t -> all_best (l ++ [t]).
Proof.
  intros H1 H2 a u b E. destruct b as [|y b'] using rev_ind.
  - apply app_inj_tail in E. destruct E as [-> ->]. exact H2.
  - rewrite app_comm_cons, app_assoc in E. apply app_inj_tail in E. destruct E as [-> ->]. apply (H1 a u b'). reflexivity.
Qed.

Record minv (s : mstate) (pos : nat) : Prop := mk_minv {
  mi_pos : pos <= n;
  mi_rest : m_rest s = skipn pos input;
  mi_delayed : Forall (pending lower input ps pos) (m_delayed s);
  mi_nodup : NoDup (m_seen s);
  mi_seen : incl (m_seen s) (universe n ps);
  mi_out : flat_map r_input (m_out s) = firstn pos input;
  mi_pieces : mpieces 0 (m_out s);
  mi_once : once (m_out s);
  mi_trail : trailing (m_out s) (m_seen s);
  mi_env : env_apply_all env_new (flat_map r_effects (m_out s)) = Ok (m_env s);
  mi_recent : m_seen s = recent (m_out s);
  mi_best : all_best (m_out s) }.
Definition measure (s : mstate) : nat := length (m_rest s) * S K + (K - length (m_seen s)).

Lemma app_snoc_inv {A} (l a b : list A) x : l ++ [x] = a ++ b ->
  (b = [] /\ a = l ++ [x]) \/ exists b', b = b' ++ [x] /\ l = a ++ b'.
Proof.
  intros E. destruct b as [|y b'] using rev_ind.
  - left. rewrite app_nil_r in E. auto.
  - right. rewrite app_assoc in E. apply app_inj_tail in E. destruct E as [-> ->]. eauto.
Qed.
Lemma NoDup_snoc {A} (l : list A) x : NoDup l -> ~ In x l -> NoDup (l ++ [x]).
Proof.
  induction 1 as [|y l Hy N IH]; simpl; intros H; [constructor; [intros []|constructor]|].
  constructor; [|apply IH; tauto]. intros I. apply in_app_or in I. destruct I as [I|[I|[]]]; [contradiction|]. subst. tauto.
Qed.
Lemma once_snoc l seen t : once l -> trailing l seen ->
  (r_length t = 0 -> ~ In (subset_of t) seen) -> once (l ++ [t]).
Proof.
  intros H1 H2 H3 a zs b E Z. rewrite app_assoc in E. apply app_snoc_inv in E. destruct E as [[-> E]|(b' & -> & E)].
  - symmetry in E. apply app_snoc_inv in E. destruct E as [[-> _]|(z' & -> & E)]; [constructor|].
    apply Forall_app in Z. destruct Z as [Z1 Z2]. inversion Z2; subst. rewrite map_app. cbn [map].
    apply NoDup_snoc.
    + apply (H1 a z' []); [rewrite app_nil_r; reflexivity|exact Z1].
    + intros Hx. apply H3; [assumption|]. apply (H2 a z' eq_refl Z1). exact Hx.
  - rewrite <- app_assoc in E. apply (H1 a zs b' E Z).
Qed.
Lemma trailing_reset l t seen : r_length t <> 0 -> trailing (l ++ [t]) seen.
Proof.
  intros H a zs E Z. apply app_snoc_inv in E. destruct E as [[-> _]|(z' & -> & E)]; [intros x []|].
  apply Forall_app in Z. destruct Z as [_ Z]. inversion Z; subst. contradiction.
Qed.
Lemma trailing_add l t seen : trailing l seen -> trailing (l ++ [t]) (subset_of t :: seen).
Proof.
  intros H a zs E Z. apply app_snoc_inv in E. destruct E as [[-> _]|(z' & -> & E)]; [intros x []|].
  apply Forall_app in Z. destruct Z as [Z _]. rewrite map_app. intros x Hx. apply in_app_or in Hx.
  destruct Hx as [Hx|[<-|[]]]; [right; apply (H a z' E Z); exact Hx|left; reflexivity].
Qed.
Lemma find_all e pos : pos <= n -> exists l, cpats_find lower ps e (Nat.eqb pos 0) (skipn pos input) = Ok l.
Proof.
  intros H. destruct (cpats_find_offered lower eq rule_pattern n e (Nat.eqb pos 0) (skipn pos input)) with (ps := ps)
    as (l & El & _); auto.
  - intros p Hp. apply rule_pattern_find; auto. rewrite skipn_length. unfold char in *. lia.
  - eauto.
Qed.
Lemma pending_good pos t : pending lower input ps pos t -> offered eq n ps (skipn pos input) t.
Proof. apply (pending_offered lower input eq rule_pattern); auto. intros. apply rule_pattern_find; auto. Qed.

Lemma step_inv s pos : minv s pos ->
  exists r, multipass_step lower ps st input s = Ok r /\
    match r with
    | MGo s' => exists pos', minv s' pos' /\ measure s' < measure s /\
        (exists t, m_out s' = m_out s ++ [t])
    | MStop out => out = m_out s /\ pos = n /\ forall u, ~ fresh_offer out u
    end.
Proof.
  intros [P1 P2 P3 P4 P5 P6 P7 P8 P9 PE PR PB]. unfold multipass_step. rewrite P2, blen_skipn by exact P1.
  destruct (find_all (m_env s) pos P1) as (found & Ef). rewrite Ef. cbn [bind].
  assert (PF : Forall (pending lower input ps pos) found) by (eapply cpats_find_pending; eauto).
  set (delayed := m_delayed s ++ later found). set (cands := now found ++ now delayed).
  assert (PD : Forall (pending lower input ps pos) delayed).
  { unfold delayed. apply Forall_app. split; [exact P3|]. apply Forall_forall. intros t Ht. apply later_In in Ht.
    rewrite Forall_forall in PF. apply PF, Ht. }
  assert (PL : Forall (pending lower input ps pos) (later delayed)).
  { apply Forall_forall. intros t Ht. apply later_In in Ht. rewrite Forall_forall in PD. apply PD, Ht. }
  assert (PC : forall t, In t cands -> r_offset t = 0 /\ pending lower input ps pos t).
  { intros t Ht. unfold cands in Ht. rewrite Forall_forall in PF, PD. apply in_app_or in Ht.
    destruct Ht as [Ht|Ht]; apply now_In in Ht; destruct Ht; auto. }
  assert (LR : length (m_rest s) = n - pos) by (rewrite P2, skipn_length; reflexivity).
  assert (T0 : total (m_out s) = pos).
  { unfold total. rewrite P6, firstn_length. unfold char in *. lia. }
  assert (FR : forall u, fresh_offer (m_out s) u -> In u (unseen (m_seen s) cands)).
  { intros u (e & fd & Xe & Xf & Xi & Xo & Xr). rewrite PE in Xe. injection Xe as <-. rewrite T0 in Xf.
    rewrite Xf in Ef. injection Ef as ->. apply unseen_In. rewrite PR. split; [|exact Xr].
    unfold cands. apply in_or_app. left. apply now_In. auto. }
  pose proof (max_weight_spec (unseen (m_seen s) cands)) as MW.
  destruct (max_weight (unseen (m_seen s) cands)) as [t|].
  - assert (BA : r_origin t <> None -> best_after (m_out s) t).
    { intros Ho u Hu. split; [exact Ho|]. apply MW, FR, Hu. }
    destruct MW as [MI _]. apply unseen_In in MI. destruct MI as [MI MS]. destruct (PC t MI) as [O0 Pd].
    destruct (pending_good pos t Pd) as ((F1 & F2 & F3) & F4 & F5 & F6). rewrite O0 in F1, F3. cbn [skipn] in F3.
    rewrite skipn_length in F1.
    destruct (sets_only_apply t (m_env s) F4) as (e' & Ee). rewrite Ee. cbn [bind].
    assert (EV : env_apply_all env_new (flat_map r_effects (m_out s ++ [t])) = Ok e').
    { rewrite flat_map_app, (env_apply_all_app _ _ _ _ PE). cbn [flat_map]. rewrite app_nil_r. exact Ee. }
    assert (AB : all_best (m_out s ++ [t])) by (apply all_best_snoc; auto).
    eexists. split; [reflexivity|]. exists (pos + r_length t).
    assert (OUT : flat_map r_input (m_out s ++ [t]) = firstn (pos + r_length t) input).
    { rewrite flat_map_app, P6. cbn [flat_map]. rewrite app_nil_r, firstn_skipn_add, F3. reflexivity. }
    assert (PCS : mpieces 0 (m_out s ++ [t])).
    { apply mpieces_app. split; [exact P7|]. rewrite T0. cbn [mpieces]. repeat split; auto. right. auto. }
    destruct (Nat.eqb_spec (r_length t) 0) as [Z|Z].
    + rewrite Z in *. rewrite Nat.add_0_r in *. split; [|split; [|eexists; reflexivity]].
      * constructor; cbn [m_rest m_delayed m_env m_seen m_out]; auto.
        -- rewrite <- (Nat.add_0_r pos). apply pending_update, PL.
        -- constructor; auto.
        -- intros x [<-|Hx]; auto.
        -- apply (once_snoc _ (m_seen s)); auto.
        -- apply trailing_add, P9.
        -- rewrite recent_snoc, Z, PR. reflexivity.
      * unfold measure. cbn [m_rest m_seen length].
        assert (B : length (subset_of t :: m_seen s) <= K).
        { apply NoDup_incl_length; [constructor; auto|]. intros x [<-|Hx]; auto. }
        cbn [length] in B. rewrite P2. lia.
    + split; [|split; [|eexists; reflexivity]].
      * constructor; cbn [m_rest m_delayed m_env m_seen m_out]; auto.
        -- unfold char in *. lia.
        -- rewrite skipn_skipn'. reflexivity.
        -- apply pending_update, PL.
        -- constructor.
        -- intros x [].
        -- apply (once_snoc _ (m_seen s)); auto.
        -- apply trailing_reset. exact Z.
        -- rewrite recent_snoc. destruct (Nat.eqb_spec (r_length t) 0); [contradiction|].
           destruct (r_origin t); [reflexivity|contradiction].
      * unfold measure. cbn [m_rest m_seen]. rewrite !skipn_length, P2, skipn_length. cbn [length].
        unfold char in *. assert (EQ : n - pos = n - pos - r_length t + r_length t) by lia.
        rewrite EQ at 2. nia.
  - assert (NF : forall u, ~ fresh_offer (m_out s) u).
    { intros u Hu. apply FR in Hu. rewrite MW in Hu. destruct Hu. }
    destruct (skipn pos input) as [|c r] eqn:Er.
    + eexists. split; [reflexivity|]. split; [reflexivity|]. split; [|exact NF].
      assert (length (skipn pos input) = 0) by (rewrite Er; reflexivity). rewrite skipn_length in H.
      unfold char in *. lia.
    + eexists. split; [reflexivity|]. exists (S pos).
      assert (LE : pos < n).
      { assert (length (skipn pos input) = S (length r)) by (rewrite Er; reflexivity). rewrite skipn_length in H.
        unfold char in *. lia. }
      assert (R' : r = skipn (pos + 1) input) by (rewrite <- skipn_skipn', Er; reflexivity).
      split; [|split; [|eexists; reflexivity]].
      * constructor; cbn [m_rest m_delayed m_env m_seen m_out]; auto.
        -- rewrite R'. f_equal. lia.
        -- replace (S pos) with (pos + 1) by lia. apply pending_update, PL.
        -- rewrite flat_map_app, P6. cbn [flat_map resolved_new r_input app].
           replace (S pos) with (pos + 1) by lia. rewrite firstn_skipn_add, Er. reflexivity.
        -- apply mpieces_app. split; [exact P7|]. cbn [mpieces]. repeat split. left. eauto.
        -- apply (once_snoc _ (m_seen s)); auto. cbn [resolved_new r_length length]. lia.
        -- apply trailing_reset. cbn [resolved_new r_length length]. lia.
        -- rewrite flat_map_app, (env_apply_all_app _ _ _ _ PE). reflexivity.
        -- rewrite recent_snoc, PR. reflexivity.
        -- apply all_best_snoc; [exact PB|]. intros u Hu. destruct (NF u Hu).
      * unfold measure. cbn [m_rest m_seen]. rewrite P2. cbn [length]. lia.
Qed.

Lemma loop_inv fuel : forall s pos, minv s pos -> measure s < fuel ->
  exists out, multipass_loop lower ps st input fuel s = Ok out /\
    flat_map r_input out = input /\ mpieces 0 out /\ once out /\ all_best out /\ forall u, ~ fresh_offer out u.
Proof.
  induction fuel as [|f IH]; intros s pos I M; [lia|]. cbn [multipass_loop].
  destruct (step_inv s pos I) as (r & Er & H). rewrite Er. cbn [bind]. destruct r as [s'|out].
  - destruct H as (pos' & I' & M' & _). apply (IH s' pos' I'). lia.
  - destruct H as (-> & -> & NF). exists (m_out s). split; [reflexivity|]. destruct I. split; [|auto].
    rewrite mi_out0, firstn_all. reflexivity.
Qed.
Lemma init_inv : minv (multipass_init input) 0.
Proof.
  constructor; cbn [multipass_init m_rest m_delayed m_env m_seen m_out mpieces flat_map firstn]; auto.
  - lia.
  - apply NoDup_nil.
  - intros x [].
  - intros a zs b E Z. destruct a, zs; try discriminate. constructor.
  - intros a zs E Z. destruct a, zs; try discriminate. intros x [].
  - intros a t b E. destruct a; discriminate.
Qed.
Lemma trace_ok : exists out, multipass_trace lower ps st input = Ok out /\
  flat_map r_input out = input /\ mpieces 0 out /\ once out /\ all_best out /\ forall u, ~ fresh_offer out u.
Proof.
  unfold multipass_trace. apply (loop_inv _ _ 0 init_inv). unfold measure, multipass_fuel.
  cbn [multipass_init m_rest m_seen length]. rewrite universe_length. lia.
Qed.

(** ** Where nothing matches *)
Lemma loop_copies fuel : forall s pos, minv s pos -> m_delayed s = [] -> length (m_rest s) < fuel ->
  (forall q e, pos <= q <= n -> cpats_find lower ps e (Nat.eqb q 0) (skipn q input) = Ok []) ->
  multipass_loop lower ps st input fuel s =
  Ok (m_out s ++ map (fun c => resolved_new [c] [c] 1 st None) (m_rest s)).
Proof.
  induction fuel as [|f IH]; intros s pos I D L H; [lia|]. cbn [multipass_loop].
  pose proof (step_inv s pos I) as SI.
  unfold multipass_step in *. destruct I as [P1 P2 P3 P4 P5 P6 P7 P8 P9 PE PR PB].
  rewrite P2, blen_skipn in * by exact P1. rewrite (H pos (m_env s)) in * by (unfold char in *; lia). cbn [bind] in *.
  rewrite D in *. cbn [app later now filter unseen max_weight fold_left update_offsets map] in *.
  destruct (skipn pos input) as [|c r] eqn:Er; cbn [bind] in *.
  - rewrite app_nil_r. reflexivity.
  - destruct SI as (rr & Err & SI). injection Err as <-. destruct SI as (pos' & I' & _ & _).
    assert (pos' = S pos).
    { pose proof (mi_rest _ _ I') as R'. cbn [m_rest] in R'. pose proof (mi_pos _ _ I').
      assert (L1 : length (skipn pos input) = S (length r)) by (rewrite Er; reflexivity).
      assert (L2 : length (skipn pos' input) = length r) by (rewrite <- R'; reflexivity).
      rewrite skipn_length in L1, L2. unfold char in *. lia. }
    subst pos'. erewrite IH; [|exact I'|reflexivity| |].
    + cbn [m_out m_rest map]. rewrite <- app_assoc. reflexivity.
    + cbn [m_rest length] in *. lia.
    + intros q e Hq. apply H. lia.
Qed.
Lemma trace_copies : (forall q e, q <= n -> cpats_find lower ps e (Nat.eqb q 0) (skipn q input) = Ok []) ->
  multipass_trace lower ps st input = Ok (map (fun c => resolved_new [c] [c] 1 st None) input).
Proof.
  intros H. unfold multipass_trace. rewrite (loop_copies _ _ 0 init_inv); try reflexivity.
  - unfold multipass_fuel. cbn [multipass_init m_rest]. lia.
  - intros q e Hq. apply H. lia.
Qed.
End Loop.

(** ** Tables *)
Lemma multipass_compile_spec rules d st x ps : multipass_compile rules d st x = TOk ps ->
  Forall (fun p => exists r test action k, In r rules /\
     (r = RCorrect test action k \/ r = RPass2 test action k \/ r = RPass3 test action k \/ r = RPass4 test action k) /\
     context_insert x test action r st = TOk p) ps.
Proof.
  revert ps. induction rules as [|r rules IH]; cbn [multipass_compile]; intros ps E.
  - injection E as <-. constructor.
  - assert (W : forall ps, multipass_compile rules d st x = TOk ps -> Forall (fun p => exists r' test action k, In r' (r :: rules) /\
     (r' = RCorrect test action k \/ r' = RPass2 test action k \/ r' = RPass3 test action k \/ r' = RPass4 test action k) /\
     context_insert x test action r' st = TOk p) ps).
    { intros ps' E'. eapply Forall_impl; [|apply IH, E']. intros p (r' & t & a & k & Hr & X). exists r', t, a, k.
      split; [right; exact Hr|exact X]. }
    destruct r; auto;
      (destruct (_ && _)%bool; [auto|]);
      (destruct (context_insert x test action _ st) as [p| |] eqn:Ep; try discriminate); cbn [tbind] in E;
      (destruct (multipass_compile rules d st x) as [m| |] eqn:Em; try discriminate); cbn [tbind] in E;
      injection E as <-; (constructor; [|auto]); do 4 eexists; (split; [left; reflexivity|]); eauto 10.
Qed.
Lemma context_insert_rule_pattern x test action o st p : context_insert x test action o st = TOk p -> rule_pattern p.
Proof.
  unfold context_insert. destruct (targets_of _ _) as [ts| |]; try discriminate. cbn [tbind].
  destruct (re_of_instrs _ _); [|discriminate]. intros [= <-]. eexists. split; [reflexivity|].
  cbn [u_origin u_effects]. split; [discriminate|]. unfold effects_of.
  induction action as [|a action IH]; cbn [flat_map]; [constructor|]. apply Forall_app. split; [|exact IH].
  destruct a; try constructor; eauto.
Qed.
