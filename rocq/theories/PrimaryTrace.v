(** The trace of the main pass: which piece is put out where, and why. *)
From Verif Require Import Base BaseProofs RuleModel TranslationModel TranslationProofs TableModel RegexpModel
  RegexpSpec RegexpCorrect PatternModel MatchProofs TrieModel BrailleModel LoopModel LoopProofs MultipassProofs
  PrimaryProofs.

(** an element of the concatenation of two lists *)
Lemma app_split {A} (x y a : list A) (t : A) (b : list A) : x ++ y = a ++ t :: b ->
  (exists b', x = a ++ t :: b' /\ b = b' ++ y) \/ (exists a', a = x ++ a' /\ y = a' ++ t :: b).
Proof.
  revert a. induction x as [|z x IH]; intros a E; simpl in E.
  - right. exists a. auto.
  - destruct a as [|z' a]; simpl in E.
    + injection E as -> <-. left. exists x. auto.
    + injection E as -> E. destruct (IH a E) as [(b' & -> & ->)|(a' & -> & ->)].
      * left. exists b'. auto.
      * right. exists a'. auto.
Qed.
Lemma total_app a b : total (a ++ b) = total a + total b.
Proof. unfold total. rewrite flat_map_app, app_length. reflexivity. Qed.
Lemma total_zero l : (forall t, In t l -> r_input t = []) -> total l = 0.
Proof.
  unfold total. induction l as [|t l IH]; intros H; [reflexivity|]. cbn [flat_map]. rewrite (H t (or_introl eq_refl)).
  apply IH. intros u Hu. apply H. right. exact Hu.
Qed.

Section Main.
Variable lower upper : char -> list char.
Variable p : ptable.
Variable indications : list (list resolved).
Variable limits : pos_flags.
Variable input : str.
Hypothesis P : table_ok lower p.
Hypothesis I : indications_ok indications.
Notation n := (length input).
Notation step := (primary_step lower upper p indications limits input).
Notation pinv := (pinv lower p indications input).
Notation pmeasure := (pmeasure p input).
Notation candidates := (primary_candidates lower p limits input).
Notation choice := (choice lower upper p limits).
Notation ind := (indicated indications).

Lemma init_inv : pinv (primary_init input).
Proof.
  constructor; cbn [primary_init s_rest s_delayed s_env s_prev s_seen s_pos s_last s_out]; auto.
  - lia.
  - constructor.
  - intros y [].
  - apply cover_nil.
  - apply F_start.
Qed.
Inductive reach : pstate -> Prop :=
| R_init : reach (primary_init input)
| R_step s s' : reach s -> step s = Ok (PGo s') -> reach s'.
Lemma reach_inv s : reach s -> pinv s.
Proof.
  induction 1 as [|s s' R IH E]; [apply init_inv|].
  destruct (pstep_inv lower upper p indications limits input P I s IH) as (cs & ds & _ & _ & r & Er & H).
  rewrite E in Er. injection Er as <-. apply H.
Qed.
Lemma loop_ok fuel : forall s, reach s -> pmeasure s < fuel ->
  exists out sf, primary_loop lower upper p indications limits input fuel s = Ok out /\ reach sf /\ step sf = Ok (PStop out).
Proof.
  induction fuel as [|f IH]; intros s R M; [lia|]. cbn [primary_loop].
  destruct (pstep_inv lower upper p indications limits input P I s (reach_inv s R)) as (cs & ds & _ & _ & r & Er & H).
  rewrite Er. cbn [bind]. destruct r as [s'|out].
  - destruct H as (_ & L & _). apply IH; [eapply R_step; eauto|]. lia.
  - exists out, s. auto.
Qed.
Lemma run_ok : exists out sf, primary_run lower upper p indications limits input = Ok out /\ reach sf /\ step sf = Ok (PStop out).
Proof.
  apply loop_ok; [apply R_init|]. unfold PrimaryProofs.pmeasure, primary_fuel, primary_init. cbn [s_rest s_seen length].
  rewrite universe_length. unfold pats. rewrite app_length. unfold char in *. lia.
Qed.

(** ** The pieces *)
Lemma zero_indicated s t : In t (ind s) -> r_length t = 0 /\ r_input t = [] /\ r_effects t = [].
Proof.
  unfold indicated. destruct (match s_last s with Some q => Nat.eqb q (s_pos s) | None => false end); [intros []|].
  intros Ht. destruct (nth_in_or_default (s_pos s) indications []) as [H|H]; [|rewrite H in Ht; destruct Ht]. apply (I _ _ H Ht).
Qed.
Lemma cover_total text out : cover lower text out -> length text = total out.
Proof.
  intros (segs & <- & F). unfold total. induction F as [|s t segs out (A & B & _) F IH]; [reflexivity|].
  cbn [concat flat_map]. rewrite !app_length, IH. unfold char in *. lia.
Qed.
Lemma reach_total s : reach s -> total (s_out s ++ ind s) = s_pos s.
Proof.
  intros R. rewrite total_app, (total_zero (ind s)) by (intros t Ht; apply (zero_indicated s), Ht).
  rewrite <- (cover_total _ _ (pi_cover _ _ _ _ _ (reach_inv s R))), firstn_length.
  pose proof (pi_pos _ _ _ _ _ (reach_inv s R)). unfold char in *. lia.
Qed.
(** the piece [t] behind the pieces [a] was chosen by a step of the loop *)
Definition chosen (a : list resolved) (t : resolved) : Prop :=
  exists s cs ds, reach s /\ s_out s ++ ind s = a /\ candidates s = Ok (cs, ds) /\
    choice s cs t (r_length t).
(** it is an indication of the position behind [a] *)
Definition indication (a : list resolved) (t : resolved) : Prop :=
  exists l1 l2 a0, nth (total a) indications [] = l1 ++ t :: l2 /\ a = a0 ++ l1.
Lemma indicated_split s a' t b : reach s -> ind s = a' ++ t :: b -> indication (s_out s ++ a') t.
Proof.
  intros R E. exists a', b, (s_out s). split; [|reflexivity].
  assert (T : total (s_out s ++ a') = s_pos s).
  { rewrite <- (reach_total s R), !total_app. rewrite (total_zero a'), (total_zero (ind s)); [reflexivity| |].
    - intros u Hu. apply (zero_indicated s), Hu.
    - intros u Hu. apply (zero_indicated s). rewrite E. apply in_or_app. auto. }
  rewrite T. rewrite <- E. unfold indicated in *.
  destruct (match s_last s with Some q => Nat.eqb q (s_pos s) | None => false end); [destruct a'; discriminate|reflexivity].
Qed.
Lemma reach_pieces s : reach s -> forall a t b, s_out s = a ++ t :: b -> chosen a t \/ indication a t.
Proof.
  induction 1 as [|s s' R IH E]; intros a t b Ea; [destruct a; discriminate|].
  destruct (pstep_inv lower upper p indications limits input P I s (reach_inv s R)) as (cs & ds & EC & _ & r & Er & H).
  rewrite E in Er. injection Er as <-. destruct H as (_ & _ & t' & len & Eo & CH & EL & _). subst len.
  rewrite Eo in Ea. destruct (app_split _ _ _ _ _ Ea) as [(b' & E1 & _)|(a' & -> & E2)]; [eapply IH; eauto|].
  destruct (app_split _ _ _ _ _ E2) as [(b' & E1 & _)|(a'' & -> & E3)].
  - right. eapply indicated_split; eauto.
  - destruct a'' as [|y a'']; [|destruct a''; discriminate]. injection E3 as <- _. rewrite app_nil_r.
    left. exists s, cs, ds. auto.
Qed.
Theorem run_pieces out : primary_run lower upper p indications limits input = Ok out ->
  (forall a t b, out = a ++ t :: b -> chosen a t \/ indication a t) /\
  cover lower input out /\ front indications n false out.
Proof.
  intros E. destruct run_ok as (out' & sf & E' & R & ES). rewrite E in E'. injection E' as <-.
  pose proof (reach_inv sf R) as PI.
  destruct (pstep_inv lower upper p indications limits input P I sf PI) as (cs & ds & EC & _ & r & Er & H).
  rewrite ES in Er. injection Er as <-. destruct H as (Hn & -> & HN1 & HN2).
  destruct (indicated_front lower p indications input I sf PI) as (FR & CV & _). rewrite Hn in FR, CV.
  rewrite firstn_all in CV. split; [|split; [exact CV|exact FR]].
  intros a t b Ea. destruct (app_split _ _ _ _ _ Ea) as [(b' & E1 & _)|(a' & -> & E2)]; [eapply reach_pieces; eauto|].
  right. eapply indicated_split; eauto.
Qed.
(** after the last piece all that is offered has been used *)
Lemma run_end out : primary_run lower upper p indications limits input = Ok out ->
  exists s cs ds, reach s /\ s_out s ++ ind s = out /\ s_pos s = n /\ candidates s = Ok (cs, ds) /\
    (forall u, In u cs -> In (subset_of u) (s_seen s)).
Proof.
  intros E. destruct run_ok as (out' & sf & E' & R & ES). rewrite E in E'. injection E' as <-.
  destruct (pstep_inv lower upper p indications limits input P I sf (reach_inv sf R)) as (cs & ds & EC & _ & r & Er & H).
  rewrite ES in Er. injection Er as <-. destruct H as (Hn & Eo & HN1 & HN2). exists sf, cs, ds. auto.
Qed.

(** ** What is seen *)
(** the insertions remembered have been made *)
Lemma reach_seen s : reach s -> forall sb, In sb (s_seen s) ->
  exists t q, sb = subset_of t /\ r_length t = 0 /\ In (adjust_case upper p limits q t) (s_out s).
Proof.
  induction 1 as [|s s' R IH E]; intros sb Hs; [destruct Hs|].
  assert (OUT : forall t, In t (s_out s) -> In t (s_out s')).
  { intros t Ht. destruct (pstep_inv lower upper p indications limits input P I s (reach_inv s R)) as (cs & ds & EC & _ & r & Er & H).
    rewrite E in Er. injection Er as <-. destruct H as (_ & _ & t' & len & Eo & _). rewrite Eo. apply in_or_app. auto. }
  assert (D : In sb (s_seen s) \/ exists t, sb = subset_of t /\ r_length t = 0 /\ In (adjust_case upper p limits (s_pos s) t) (s_out s')).
  { clear IH OUT. revert E Hs. unfold primary_step. destruct (candidates s) as [[cs ds]| |]; try discriminate. cbn [bind].
    destruct (max_weight (nocross_candidates lower p limits (s_rest s) (s_prev s) (s_pos s))) as [nc|];
      destruct (max_weight (unseen (s_seen s) cs)) as [t|];
      try (destruct (Nat.leb (r_weight t) (r_weight nc)));
      try (destruct (Nat.eqb (r_length nc) 0); [discriminate|]; intros [= <-]; auto; fail).
    1,2: destruct (env_apply_all (s_env s) (r_effects t)) as [e| |]; try discriminate; cbn [bind];
      (destruct (Nat.eqb_spec (r_length t) 0) as [Z|Z]; intros [= <-];
       [cbn [s_seen s_out]; intros [<-|Hs]; [right; exists t; split; [reflexivity|]; split; [exact Z|]; apply in_or_app; simpl; auto|auto]
       |intros []]).
    destruct (s_rest s) as [|c r]; [discriminate|]. destruct (fallback_piece p c) as [t| |]; try discriminate. cbn [bind].
    intros [= <-]. auto. }
  destruct D as [D|(t & E1 & E2 & E3)]; [|eauto].
  destruct (IH sb D) as (t & q & E1 & E2 & E3). exists t, q. auto.
Qed.

(** ** The candidates in full *)
(** what the rules offer at the cursor, before the restrictions of the position *)
Definition offers (s : pstate) (u : resolved) : Prop :=
  In u (find_translations lower (p_trie p) (s_rest s) (s_prev s)) \/
  (exists l, cpats_find lower (p_match p) env_new (Nat.eqb (s_pos s) 0) (s_rest s) = Ok l /\ In u l /\ r_offset u = 0) \/
  (exists l, cpats_find lower (p_context p) (s_env s) (Nat.eqb (s_pos s) 0) (s_rest s) = Ok l /\ In u l /\ r_offset u = 0) \/
  (In u (s_delayed s) /\ r_offset u = 0).
(** the reading of the next cell as a digit *)
Definition digit_reading (s : pstate) : option resolved :=
  match p_dir p, flag_at k_digit limits (s_pos s), s_rest s with
  | Backward, true, c :: _ => assoc c (p_digits p)
  | _, _, _ => None
  end.
Lemma candidates_exact s cs ds : pinv s -> candidates s = Ok (cs, ds) ->
  forall u, In u cs <->
    if flag_at k_comp6 limits (s_pos s)
    then In u (find_translations lower (p_comp6 p) (s_rest s) (s_prev s))
    else (flag_at k_dont_contract limits (s_pos s) = true -> r_length u <= 1) /\
         (digit_reading s = Some u \/
          offers s u /\ punc_ok limits (s_pos s) u = true /\ (digit_reading s <> None -> r_length u <> 1)).
Proof.
  intros PI EC u. destruct PI as [P1 P2 P3 P4 P5 P6 P7 P8 P9 P10]. revert EC. unfold primary_candidates.
  assert (BL : Nat.eqb (blen (s_rest s)) (blen input) = Nat.eqb (s_pos s) 0) by (rewrite P2; apply blen_skipn, P1).
  rewrite BL. unfold match_find.
  destruct (cpats_find lower (p_match p) env_new (Nat.eqb (s_pos s) 0) (s_rest s)) as [ms| |] eqn:Em; try discriminate. cbn [bind].
  destruct (cpats_find lower (p_context p) (s_env s) (Nat.eqb (s_pos s) 0) (s_rest s)) as [xs| |] eqn:Ex; try discriminate. cbn [bind].
  set (fs := find_translations lower (p_trie p) (s_rest s) (s_prev s)).
  set (delayed := s_delayed s ++ later fs ++ later ms ++ later xs).
  set (l0 := now fs ++ now ms ++ now xs ++ now delayed).
  assert (L0 : In u l0 <-> offers s u).
  { unfold offers, l0. rewrite !in_app_iff, !now_In. rewrite Em, Ex. fold fs. split.
    - intros [[H _]|[[H Z]|[[H Z]|[H Z]]]]; [auto|right; left; eauto|right; right; left; eauto|].
      unfold delayed in H. rewrite !in_app_iff, !later_In in H.
      destruct H as [H|[[_ H]|[[_ H]|[_ H]]]]; [right; right; right; auto|contradiction..].
    - intros [H|[(l & [= <-] & H & Z)|[(l & [= <-] & H & Z)|[H Z]]]]; auto.
      + left. split; [exact H|]. apply (ok_trie _ _ P) in H. apply H.
      + right; right; right. split; [|exact Z]. unfold delayed. apply in_or_app. auto. }
  intros [= <- _].
  destruct (flag_at k_comp6 limits (s_pos s)); [reflexivity|].
  assert (L1 : In u (prefer_digit p limits (s_rest s) (s_pos s) (filter (punc_ok limits (s_pos s)) l0)) <->
    (digit_reading s = Some u \/
          offers s u /\ punc_ok limits (s_pos s) u = true /\ (digit_reading s <> None -> r_length u <> 1))).
  { unfold prefer_digit, digit_reading.
    assert (B : In u (filter (punc_ok limits (s_pos s)) l0) <-> None = Some u \/ offers s u /\ punc_ok limits (s_pos s) u = true /\ (@None resolved <> None -> r_length u <> 1)).
    { rewrite filter_In, L0. split; [intros [A B]; right; repeat split; auto; congruence|].
      intros [[=]|(A & B & _)]. auto. }
    destruct (p_dir p); [exact B|]. destruct (flag_at k_digit limits (s_pos s)); [|exact B].
    destruct (s_rest s) as [|c r]; [exact B|]. destruct (assoc c (p_digits p)) as [dt|]; [|exact B].
    rewrite in_app_iff, !filter_In, L0, negb_true_iff, Nat.eqb_neq. cbn [In]. split.
    - intros [((A & B1) & C)|[<-|[]]]; [right; auto|left; reflexivity].
    - intros [[= <-]|(A & B1 & C)]; [auto|]. left. split; [auto|]. apply C. discriminate. }
  destruct (flag_at k_dont_contract limits (s_pos s)).
  - rewrite filter_In, Nat.leb_le, L1. split; [intros [A B]; auto|intros [A B]; auto].
  - rewrite L1. split; [intros A; split; [discriminate|exact A]|intros [_ A]; exact A].
Qed.
End Main.
