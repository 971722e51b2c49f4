(** Priority: the virtual machine reports the match a backtracking matcher would
    find first. *)
From Verif Require Import Base BaseProofs RegexpModel RegexpSpec RegexpCode RegexpVM RegexpCorrect.

Section Prio.
Variable lower : char -> list char.
Variable env : N -> option N.
Variable at_start : bool.
Variable prog : list instr.
Variable K : list (list char).
Variable input : str.
Notation n_in := (length input).
Notation succs := (succs env at_start input).
Notation consumes := (consumes lower K input).
Notation addt := (addt env at_start prog input).
Notation addl := (addl env at_start prog input).
Notation bcap := (bcap input).

(** Backtracking execution of byte code, with the size of the derivation. *)
Inductive Best : nat -> nat -> nat -> span -> option runres -> Prop :=
| B_match : forall pc i c t,
    nth_error prog pc = Some (IMatch t) -> Best 0 pc i c (Some (c, i, t))
| B_ok : forall n pc i c x o,
    nth_error prog pc = Some x -> consumes x i = Some true ->
    Best n (S pc) (S i) c o -> Best (S n) pc i c o
| B_no : forall pc i c x,
    nth_error prog pc = Some x -> consumes x i = Some false -> Best 0 pc i c None
| B_eps : forall n pc i c x l o,
    nth_error prog pc = Some x -> succs x pc i c = Some l ->
    BestL n l i o -> Best (S n) pc i c o
with BestL : nat -> list (nat * span) -> nat -> option runres -> Prop :=
| BL_nil : forall i, BestL 0 [] i None
| BL_some : forall n pc i c r o, Best n pc i c (Some o) -> BestL (S n) ((pc, c) :: r) i (Some o)
| BL_none : forall n m pc i c r o, Best n pc i c None -> BestL m r i o ->
    BestL (S (n + m)) ((pc, c) :: r) i o.

Scheme Best_mut := Induction for Best Sort Prop
with BestL_mut := Induction for BestL Sort Prop.

Lemma consumes_succs x i b : consumes x i = Some b -> forall pc c, succs x pc i c = None.
Proof. unfold RegexpVM.consumes. destruct x; cbn; intros H; try discriminate; reflexivity. Qed.

Lemma consumes_match t i b : consumes (IMatch t) i = Some b -> False.
Proof. unfold RegexpVM.consumes; cbn; discriminate. Qed.

(** inversion by instruction *)
Lemma Best_inv n pc i c o : Best n pc i c o ->
  (exists t, nth_error prog pc = Some (IMatch t) /\ n = 0 /\ o = Some (c, i, t)) \/
  (exists x n', nth_error prog pc = Some x /\ consumes x i = Some true /\ n = S n' /\ Best n' (S pc) (S i) c o) \/
  (exists x, nth_error prog pc = Some x /\ consumes x i = Some false /\ n = 0 /\ o = None) \/
  (exists x l n', nth_error prog pc = Some x /\ succs x pc i c = Some l /\ n = S n' /\ BestL n' l i o).
Proof.
  intros H; inversion H; subst.
  - left; eauto.
  - right; left; eauto 6.
  - right; right; left; eauto.
  - right; right; right; eauto 7.
Qed.

(** success and size do not depend on the capture, the outcome is unique *)
Definition same_success (o o' : option runres) : Prop := o = None <-> o' = None.

Lemma Best_det n pc i c o : Best n pc i c o ->
  forall n' c' o', Best n' pc i c' o' -> n = n' /\ same_success o o' /\ (c = c' -> o = o').
Proof.
  intros H.
  induction H using Best_mut with
    (P0 := fun n l i o _ => forall n' l' o', BestL n' l' i o' -> map fst l = map fst l' ->
             n = n' /\ same_success o o' /\ (l = l' -> o = o')).
  - intros n' c' o' H'. apply Best_inv in H'.
    destruct H' as [(t' & H1 & -> & ->)|[(x' & n1 & H1 & H2 & -> & H4)|[(x' & H1 & H2 & -> & ->)|(x' & l' & n1 & H1 & H2 & -> & H3)]]];
      rewrite e in H1; inversion H1; subst.
    + split; auto. split; [split; discriminate|]. intros ->; reflexivity.
    + exfalso; eapply consumes_match; eauto.
    + exfalso; eapply consumes_match; eauto.
    + discriminate.
  - intros n' c' o' H'. apply Best_inv in H'.
    destruct H' as [(t' & H1 & -> & ->)|[(x' & n1 & H1 & H2 & -> & H4)|[(x' & H1 & H2 & -> & ->)|(x' & l' & n1 & H1 & H2 & -> & H3)]]];
      rewrite e in H1; inversion H1; subst.
    + exfalso; eapply consumes_match; eauto.
    + destruct (IHBest _ _ _ H4) as (-> & Hs & Ho). auto.
    + congruence.
    + rewrite (consumes_succs _ _ _ e0) in H2. discriminate.
  - intros n' c' o' H'. apply Best_inv in H'.
    destruct H' as [(t' & H1 & -> & ->)|[(x' & n1 & H1 & H2 & -> & H4)|[(x' & H1 & H2 & -> & ->)|(x' & l' & n1 & H1 & H2 & -> & H3)]]];
      rewrite e in H1; inversion H1; subst.
    + exfalso; eapply consumes_match; eauto.
    + congruence.
    + split; auto. split; [split; auto|auto].
    + rewrite (consumes_succs _ _ _ e0) in H2. discriminate.
  - intros n' c' o' H'. apply Best_inv in H'.
    destruct H' as [(t' & H1 & -> & ->)|[(x' & n1 & H1 & H2 & -> & H4)|[(x' & H1 & H2 & -> & ->)|(x' & l' & n1 & H1 & H2 & -> & H3)]]];
      rewrite e in H1; inversion H1; subst.
    + discriminate.
    + rewrite (consumes_succs _ _ _ H2) in e0. discriminate.
    + rewrite (consumes_succs _ _ _ H2) in e0. discriminate.
    + pose proof (succs_pcs env at_start input x' pc i c c') as Hp. rewrite e0, H2 in Hp.
      destruct (IHBest _ _ _ H3 Hp) as (-> & Hs & Ho). split; auto. split; auto.
      intros ->. apply Ho. congruence.
  - intros n' l' o' H' Hm. destruct l'; [|discriminate]. inversion H'; subst.
    split; auto. split; [split; auto|auto].
  - intros n' l' o' H' Hm. destruct l' as [|[pc' c'] r']; [discriminate|]. cbn in Hm. inversion Hm; subst.
    inversion H'; subst.
    + match goal with H : Best _ _ _ c' _ |- _ => destruct (IHBest _ _ _ H) as (-> & Hs & Ho) end.
      split; auto. split; auto. intros E; inversion E; auto.
    + match goal with H : Best _ _ _ c' _ |- _ => destruct (IHBest _ _ _ H) as (-> & Hs & Ho) end.
      destruct Hs as [_ Hs]. specialize (Hs eq_refl). discriminate.
  - intros n' l' o' H' Hm. destruct l' as [|[pc' c'] r']; [discriminate|]. cbn in Hm. inversion Hm; subst.
    inversion H'; subst.
    + match goal with H : Best _ _ _ c' _ |- _ => destruct (IHBest _ _ _ H) as (-> & Hs & Ho) end.
      destruct Hs as [Hs _]. specialize (Hs eq_refl). discriminate.
    + match goal with H : Best _ _ _ c' _ |- _ => destruct (IHBest _ _ _ H) as (-> & _ & _) end.
      match goal with H : BestL _ r' _ _ |- _ => destruct (IHBest0 _ _ _ H) as (-> & Hs & Ho); [assumption|] end.
      split; auto. split; auto. intros E; inversion E; auto.
Qed.

(** first success of an ordered thread list *)
Inductive FirstT (i : nat) : list thread -> option runres -> Prop :=
| FT_nil : FirstT i [] None
| FT_some : forall n pc c r o, Best n pc i c (Some o) -> FirstT i ((pc, bcap c) :: r) (Some o)
| FT_none : forall n pc c r o, Best n pc i c None -> FirstT i r o -> FirstT i ((pc, bcap c) :: r) o.

Definition orelse {A} (a b : option A) : option A := match a with Some _ => a | None => b end.

Lemma FirstT_app i T o new : FirstT i T o -> forall o', (o = None -> FirstT i new o') ->
  FirstT i (T ++ new) (orelse o o').
Proof.
  induction 1; intros o' Hn; cbn [app orelse].
  - apply Hn; reflexivity.
  - eapply FT_some; eauto.
  - eapply FT_none; eauto.
Qed.

(** every finished instruction fails, or the list already succeeds *)
Definition done (i : nat) (P : list nat) (tl : tlist) (oT : option runres) : Prop :=
  forall p, In p (snd tl) -> ~ In p P -> (exists n c, Best n p i c None) \/ oT <> None.

(** instructions under construction need strictly larger derivations *)
Definition deeper (i n : nat) (P : list nat) : Prop :=
  forall p n' c' o', In p P -> Best n' p i c' o' -> n < n'.

Hypothesis Hwf : wf prog K.

Lemma bestL_depth n l i o : BestL n l i o -> forall t r, l = t :: r ->
  exists k o', Best k (fst t) i (snd t) o' /\ k < n.
Proof. intros H t r ->. inversion H; subst; cbn; eexists _, _; split; eauto; lia. Qed.

Lemma add_first : forall fuel i, i <= n_in ->
  (forall tl pc c n o oT P,
     seen_ok prog (snd tl) -> pc < length prog -> length prog - length (snd tl) < fuel ->
     FirstT i (fst tl) oT -> done i P tl oT -> (oT = None -> Best n pc i c o /\ deeper i n P) ->
     exists tl', addt fuel tl i (pc, c) = Ok tl' /\ seen_ok prog (snd tl') /\ incl (snd tl) (snd tl') /\
       FirstT i (fst tl') (orelse oT o) /\ done i P tl' (orelse oT o)) /\
  (forall l tl n o oT P,
     seen_ok prog (snd tl) -> (forall t, In t l -> fst t < length prog) ->
     length prog - length (snd tl) < fuel ->
     FirstT i (fst tl) oT -> done i P tl oT -> (oT = None -> BestL n l i o /\ deeper i n P) ->
     exists tl', addl fuel tl i l = Ok tl' /\ seen_ok prog (snd tl') /\ incl (snd tl) (snd tl') /\
       FirstT i (fst tl') (orelse oT o) /\ done i P tl' (orelse oT o)).
Proof.
  induction fuel as [|f IH]; intros i Hi; [split; intros; lia|].
  assert (Hone : forall tl pc c n o oT P,
     seen_ok prog (snd tl) -> pc < length prog -> length prog - length (snd tl) < S f ->
     FirstT i (fst tl) oT -> done i P tl oT -> (oT = None -> Best n pc i c o /\ deeper i n P) ->
     exists tl', addt (S f) tl i (pc, c) = Ok tl' /\ seen_ok prog (snd tl') /\ incl (snd tl) (snd tl') /\
       FirstT i (fst tl') (orelse oT o) /\ done i P tl' (orelse oT o)).
  { intros tl pc c n o oT P Hs Hpc Hf HT Hd Hb.
    destruct oT as [z|].
    { (* something of higher priority already succeeds: whatever is added does not matter *)
      destruct (proj1 (add_spec env at_start prog K input Hwf (S f) i Hi) tl (pc, c) Hs Hpc Hf)
        as (tl' & E & (P1 & P2 & _ & (new & Pn & _) & _)).
      exists tl'. split; [exact E|]. split; [exact P1|]. split; [exact P2|]. cbn [orelse]. split.
      - rewrite Pn. apply (FirstT_app i _ (Some z) new HT o). discriminate.
      - intros p _ _. right. discriminate. }
    destruct (Hb eq_refl) as [HB Hdeep]. clear Hb. cbn [orelse].
    rewrite (addt_unfold env at_start prog input f tl i pc c Hi).
    destruct (seenb pc (snd tl)) eqn:Eseen.
    - apply seenb_In in Eseen. exists tl. split; [reflexivity|]. split; [exact Hs|]. split; [apply incl_refl|].
      destruct (in_dec Nat.eq_dec pc P) as [HP|HP].
      { specialize (Hdeep pc n c o HP HB). lia. }
      destruct (Hd pc Eseen HP) as [(n' & c' & HN)|Hne]; [|congruence].
      destruct (Best_det _ _ _ _ _ HB _ _ _ HN) as (_ & [_ Hsn] & _).
      rewrite (Hsn eq_refl) in *. split; auto.
    - assert (Hnin : ~ In pc (snd tl)).
      { intros Hin. apply seenb_In in Hin. congruence. }
      assert (Hs1 : seen_ok prog (pc :: snd tl)).
      { split; [constructor; [exact Hnin|apply Hs]|]. intros p [<-|Hp]; auto. apply Hs; exact Hp. }
      destruct (nth_error prog pc) as [x|] eqn:Ex.
      2:{ apply nth_error_None in Ex. lia. }
      destruct (RegexpVM.succs env at_start input x pc i c) as [l|] eqn:Esucc.
      + (* epsilon *)
        apply Best_inv in HB.
        destruct HB as [(t' & H1 & _ & _)|[(x' & n1 & H1 & H2 & _ & _)|[(x' & H1 & H2 & _ & _)|(x' & l' & n1 & H1 & H2 & Hn & H3)]]];
          rewrite Ex in H1; inversion H1; subst.
        { discriminate. }
        { rewrite (consumes_succs _ _ _ H2) in Esucc. discriminate. }
        { rewrite (consumes_succs _ _ _ H2) in Esucc. discriminate. }
        rewrite Esucc in H2. inversion H2; subst l'.
        pose proof (seen_ok_len _ _ Hs1) as Hlen. cbn [length] in Hlen.
        destruct (proj2 (IH i Hi) l (fst tl, pc :: snd tl) n1 o None (pc :: P)) as (tl' & E & Q1 & Q2 & Q3 & Q4).
        { exact Hs1. }
        { eapply succs_in_range; eauto. }
        { cbn [snd length]. lia. }
        { exact HT. }
        { intros p [<-|Hp] Hn; [exfalso; apply Hn; left; reflexivity|].
          apply Hd; [exact Hp|]. intros HP; apply Hn; right; exact HP. }
        { intros _. split; [exact H3|]. intros p n' c' o' [<-|Hp] Hb'.
          - assert (HB' : Best (S n1) pc i c o) by (eapply B_eps; eauto).
            destruct (Best_det _ _ _ _ _ HB' _ _ _ Hb') as (<- & _). lia.
          - specialize (Hdeep p n' c' o' Hp Hb'). lia. }
        exists tl'. split; [exact E|]. split; [exact Q1|]. cbn [orelse snd] in *.
        split; [intros p Hp; apply Q2; right; exact Hp|]. split; [exact Q3|].
        intros p Hp HP. destruct (Nat.eq_dec p pc) as [->|Hne].
        * destruct o as [z|]; [right; discriminate|]. left. exists (S n1), c. eapply B_eps; eauto.
        * apply Q4; [exact Hp|]. intros [->|Hin]; auto.
      + (* a thread is appended *)
        exists (fst tl ++ [(pc, bcap c)], pc :: snd tl).
        split; [reflexivity|]. cbn [fst snd]. split; [exact Hs1|]. split; [intros p Hp; right; exact Hp|].
        split.
        * apply (FirstT_app i _ None _ HT). intros _.
          destruct o as [z|]; [eapply FT_some; eauto|eapply FT_none; eauto; constructor].
        * intros p [<-|Hp] HP.
          -- destruct o as [z|]; [right; discriminate|left; eauto].
          -- destruct (Hd p Hp HP) as [H|H]; [left; exact H|congruence]. }
  split; [exact Hone|].
  intros l. induction l as [|[pc c] l IHl]; intros tl n o oT P Hs Hl Hf HT Hd Hb.
  - exists tl. split; [reflexivity|]. split; [exact Hs|]. split; [apply incl_refl|].
    destruct oT as [z|]; cbn [orelse].
    + split; auto.
    + destruct (Hb eq_refl) as [HB _]. inversion HB; subst. split; auto.
  - cbn [RegexpVM.addl].
    assert (Hpc : pc < length prog) by (apply (Hl (pc, c)); left; reflexivity).
    assert (Hfst : exists k o1, (oT = None -> Best k pc i c o1 /\ deeper i k P /\
                 match o1 with Some z => o = Some z | None => exists m, BestL m l i o /\ deeper i m P end)).
    { destruct oT as [z|]; [exists 0, None; discriminate|].
      destruct (Hb eq_refl) as [HB Hdeep]. inversion HB; subst.
      - exists n0, (Some o0). intros _. split; [assumption|]. split; [|reflexivity].
        intros p n' c' o' Hp Hb'. specialize (Hdeep p n' c' o' Hp Hb'). lia.
      - exists n0, None. intros _. split; [assumption|]. split.
        + intros p n' c' o' Hp Hb'. specialize (Hdeep p n' c' o' Hp Hb'). lia.
        + exists m. split; [assumption|].
          intros p n' c' o' Hp Hb'. specialize (Hdeep p n' c' o' Hp Hb'). lia. }
    destruct Hfst as (k & o1 & Hfst).
    destruct (Hone tl pc c k o1 oT P) as (tl1 & E1 & S1 & I1 & F1 & D1); auto.
    { intros E. destruct (Hfst E) as (? & ? & _); auto. }
    rewrite E1. cbn [bind].
    assert (Hlen : length (snd tl) <= length (snd tl1)) by (apply NoDup_incl_length; [apply Hs|exact I1]).
    assert (Hrest : exists m, (orelse oT o1 = None -> BestL m l i o /\ deeper i m P)).
    { destruct oT as [z|]; [exists 0; discriminate|]. cbn [orelse].
      destruct (Hfst eq_refl) as (_ & _ & H3). destruct o1 as [z|]; [exists 0; discriminate|].
      destruct H3 as (m & H3 & H4). exists m; auto. }
    destruct Hrest as (m & Hrest).
    destruct (IHl tl1 m o (orelse oT o1) P) as (tl' & E & S2 & I2 & F2 & D2); auto.
    { intros t Ht; apply Hl; right; exact Ht. }
    { lia. }
    exists tl'. split; [exact E|]. split; [exact S2|]. split; [eapply incl_tran; eauto|].
    assert (Eo : orelse (orelse oT o1) o = orelse oT o).
    { destruct oT as [z|]; [reflexivity|]. cbn [orelse]. destruct (Hfst eq_refl) as (_ & _ & H3).
      destruct o1 as [z|]; [symmetry; exact H3|reflexivity]. }
    rewrite Eo in *. auto.
Qed.

Definition enc (o : option runres) : matched :=
  option_map (fun z => (bcap (fst (fst z)), snd (fst z), snd z)) o.

Notation step := (step_threads lower env at_start prog K).
Notation loop := (vm_loop lower env at_start prog K).

(** threads carry captures at character boundaries and sit at closure ends *)
Definition thr_ok (i : nat) (th : thread) : Prop :=
  thread_ok env at_start prog input i th /\ exists c, snd th = bcap c.

Lemma new_thr_ok i tl tl' t :
  add_post env at_start prog input i tl tl' [t] ->
  (forall th, In th (fst tl) -> thr_ok i th) -> forall th, In th (fst tl') -> thr_ok i th.
Proof.
  intros (P1 & P2 & P3 & (new & Pn & P4) & P5) Hold th Hth. rewrite Pn in Hth.
  apply in_app_or in Hth. destruct Hth as [Hth|Hth]; [auto|].
  destruct (P4 th Hth) as (S1 & t' & c' & _ & S3 & _ & S5).
  split; [split; [apply P1; exact S1|exact S5]|eauto].
Qed.

(** stepping: what the current threads achieve is shared between the next list
    and the recorded match *)
Lemma step_first : forall ts i next m o oN,
  i <= n_in ->
  (forall th, In th ts -> thr_ok i th) -> (forall th, In th (fst next) -> thr_ok (S i) th) ->
  seen_ok prog (snd next) ->
  FirstT (S i) (fst next) oN -> done (S i) [] next oN ->
  (oN = None -> FirstT i ts o) ->
  exists next' m' oN',
    step ts (nth_error input i) (boff input i) (blen input) i next m = Ok (next', m') /\
    (forall th, In th (fst next') -> thr_ok (S i) th) /\
    FirstT (S i) (fst next') oN' /\
    orelse (enc oN') m' = orelse (enc oN) (orelse (enc o) m) /\
    (nth_error input i = None -> next' = next).
Proof.
  induction ts as [|[pc cap] ts IH]; intros i next m o oN Hi Hts Hnx Hseen HN Hd HF.
  - exists next, m, oN. cbn [step_threads]. split; [reflexivity|]. split; [auto|]. split; [auto|].
    split; [|auto]. destruct oN as [z|]; [reflexivity|].
    specialize (HF eq_refl). inversion HF; subst. reflexivity.
  - destruct (Hts (pc, cap) (or_introl eq_refl)) as [Hok (c0 & Hc0)]. cbn [snd] in Hc0.
    assert (Hth : exists c n o1, cap = bcap c /\ (oN = None -> Best n pc i c o1 /\
                match o1 with Some z => o = Some z | None => FirstT i ts o end)).
    { destruct oN as [z|]; [exists c0, 0, None; split; [exact Hc0|discriminate]|].
      specialize (HF eq_refl). inversion HF; subst.
      - eexists c, n, (Some o0). split; [auto|]. auto.
      - eexists c, n, None. split; [auto|]. auto. }
    clear c0 Hc0 HF. destruct Hth as (c & n & o1 & -> & Hth).
    destruct (step_cons lower env at_start prog K input Hwf pc (bcap c) ts i m next Hi Hok) as
      [(t & Hx & E)|[(x & Hx & Ha & E)|(x & Hx & Ha & Hlt & Hin & E)]].
    + exists next, (Some (bcap c, i, t)), oN. split; [exact E|]. split; [auto|]. split; [auto|]. split; [|auto].
      destruct oN as [z|]; [reflexivity|]. cbn [enc option_map orelse].
      destruct (Hth eq_refl) as [HB Ho].
      destruct (Best_det _ _ _ _ _ HB 0 c (Some (c, i, t)) (B_match _ _ _ _ Hx)) as (_ & _ & Heq).
      rewrite (Heq eq_refl) in Ho. subst o. reflexivity.
    + destruct (IH i next m o oN Hi) as (next' & m' & oN' & E' & Q1 & Q2 & Q3 & Q4); auto.
      { intros th Hin; apply Hts; right; exact Hin. }
      { intros HoN. destruct (Hth HoN) as [HB Ho].
        destruct (Best_det _ _ _ _ _ HB 0 c None (B_no _ _ _ _ Hx Ha)) as (_ & _ & Heq).
        rewrite (Heq eq_refl) in Ho. exact Ho. }
      exists next', m', oN'. split; [etransitivity; [exact E|exact E']|]. auto.
    + assert (Hb' : oN = None -> exists n', Best n' (S pc) (S i) c o1).
      { intros HoN. destruct (Hth HoN) as [HB _]. apply Best_inv in HB.
        destruct HB as [(t' & G1 & _ & G2)|[(x' & n1 & G1 & G2 & _ & G3)|[(x' & G1 & G2 & _ & G3)|(x' & l' & n1 & G1 & G2 & _ & _)]]];
          rewrite Hx in G1; inversion G1; subst.
        - exfalso; eapply consumes_match; eauto.
        - eauto.
        - congruence.
        - rewrite (consumes_succs _ _ _ Ha) in G2. discriminate. }
      assert (Hb2 : exists n', oN = None -> Best n' (S pc) (S i) c o1).
      { destruct oN as [z|]; [exists 0; discriminate|]. destruct (Hb' eq_refl) as (n' & Hn'). exists n'; auto. }
      destruct Hb2 as (n' & Hn').
      destruct (proj1 (add_first (at_fuel prog) (S i) Hin) next (S pc) c n' o1 oN []) as (n1 & E1 & S1 & I1 & F1 & D1); auto.
      { unfold at_fuel. lia. }
      { intros HoN. split; [auto|]. intros p ? ? ? []. }
      destruct (addt_total env at_start prog K input Hwf next (S i) (S pc, c) Hin Hseen Hlt) as (n2 & E2 & HP).
      assert (n2 = n1) by congruence. subst n2.
      unfold RegexpVM.addt in E1. cbn [fst snd] in E1.
      destruct (IH i n1 m o (orelse oN o1) Hi) as (next' & m' & oN' & E' & Q1 & Q2 & Q3 & Q4); auto.
      { intros th Hth'; apply Hts; right; exact Hth'. }
      { eapply new_thr_ok; eauto. }
      { intros HoN. destruct oN as [z|]; [discriminate|]. cbn [orelse] in HoN. subst o1. apply Hth; reflexivity. }
      exists next', m', oN'. split; [etransitivity; [exact E|rewrite E1; exact E']|]. split; [auto|]. split; [auto|].
      split.
      * rewrite Q3. destruct oN as [z|]; [reflexivity|]. cbn [orelse enc option_map].
        destruct (Hth eq_refl) as [_ Ho]. destruct o1 as [z|]; [subst o|]; reflexivity.
      * intros Hnone. apply nth_error_None in Hnone. lia.
Qed.

Lemma loop_first : forall f i cur m o,
  i <= n_in -> n_in - i < f ->
  (forall th, In th cur -> thr_ok i th) -> FirstT i cur o ->
  loop f input (boff input i) i cur m = Ok (orelse (enc o) m).
Proof.
  induction f as [|f IH]; intros i cur m o Hi Hf Hok HF; [lia|].
  destruct cur as [|th cur'].
  - inversion HF; subst. reflexivity.
  - rewrite loop_unfold by (auto; discriminate).
    destruct (step_first (th :: cur') i ([], []) m o None Hi Hok) as (next' & m' & oN' & E & Q1 & Q2 & Q3 & Q4).
    { intros t []. } { apply seen_ok_nil. } { constructor. } { intros p []. } { auto. }
    rewrite E. cbn [bind]. cbn [enc option_map orelse] in Q3.
    destruct (nth_error input i) as [a|] eqn:Ea.
    + assert (i < n_in) by (apply nth_error_Some; congruence).
      rewrite (IH (S i) (fst next') m' oN'); auto; [|lia]. rewrite Q3. reflexivity.
    + rewrite (Q4 eq_refl) in Q2. inversion Q2; subst oN'. cbn [enc option_map orelse] in Q3. rewrite Q3. reflexivity.
Qed.

Theorem vm_first n o : Best n 0 0 (0,0) o ->
  (do tl <- add_thread env at_start prog (at_fuel prog) ([], []) 0 (0, 0) 0 (blen input);
   loop (S (S n_in)) input 0 0 (fst tl) None) = Ok (enc o).
Proof.
  intros HB.
  destruct (proj1 (add_first (at_fuel prog) 0 (Nat.le_0_l _)) ([], []) 0 (0,0) n o None []) as (tl & E & S1 & I1 & F1 & D1).
  { apply seen_ok_nil. } { apply (proj1 Hwf). } { unfold at_fuel; cbn; lia. } { constructor. } { intros p []. }
  { intros _. split; [exact HB|]. intros p ? ? ? []. }
  destruct (init_spec env at_start prog K input Hwf) as (tl2 & E2 & HP).
  assert (Heq : Ok tl2 = Ok tl) by (etransitivity; [symmetry; exact E2|exact E]).
  inversion Heq; subst tl2; clear Heq.
  unfold RegexpVM.addt in E. cbn [fst snd] in E.
  change (bcap (0,0)) with (0,0) in E. change (boff input 0) with 0 in E.
  rewrite E. cbn [bind orelse] in *.
  change 0 with (boff input 0) at 1.
  rewrite (loop_first (S (S n_in)) 0 (fst tl) None o); auto; try lia.
  - destruct (enc o); reflexivity.
  - eapply new_thr_ok; [exact HP|intros t []].
Qed.

(** ** From byte code back to the pattern *)

Inductive FirstO (q : nat) : list outcome -> option runres -> Prop :=
| FO_nil : FirstO q [] None
| FO_some : forall n j c r o, Best n q j c (Some o) -> FirstO q ((j, c) :: r) (Some o)
| FO_none : forall n j c r o, Best n q j c None -> FirstO q r o -> FirstO q ((j, c) :: r) o.

Lemma FirstO_app q l1 l2 o : FirstO q (l1 ++ l2) o ->
  (exists z, o = Some z /\ FirstO q l1 (Some z)) \/ (FirstO q l1 None /\ FirstO q l2 o).
Proof.
  revert o; induction l1 as [|[j c] l1 IH]; cbn [app]; intros o H.
  - right. split; [constructor|exact H].
  - inversion H; subst.
    + left. eexists; split; [reflexivity|]. eapply FO_some; eauto.
    + match goal with H : FirstO q (l1 ++ l2) _ |- _ => destruct (IH _ H) as [(z & -> & Hz)|[Ha Hb]] end.
      * left. exists z. split; auto. eapply FO_none; eauto.
      * right. split; auto. eapply FO_none; eauto.
Qed.

Lemma FirstO_single q j c o : FirstO q [(j, c)] o -> exists n, Best n q j c o.
Proof.
  intros H; inversion H; subst; eauto.
  match goal with H : FirstO q [] _ |- _ => inversion H; subst end. eauto.
Qed.

Lemma FirstO_flat_map q m (g : nat -> span -> list outcome) l o :
  (forall j c o, In (j, c) l -> FirstO q (g j c) o -> exists n, Best n m j c o) ->
  FirstO q (flat_map (fun x => g (fst x) (snd x)) l) o -> FirstO m l o.
Proof.
  revert o; induction l as [|[j c] l IH]; intros o Hg H; cbn [flat_map fst snd] in H.
  - inversion H; subst. constructor.
  - apply FirstO_app in H. destruct H as [(z & -> & Hz)|[Ha Hb]].
    + destruct (Hg j c (Some z) (or_introl eq_refl) Hz) as (n & Hn). eapply FO_some; eauto.
    + destruct (Hg j c None (or_introl eq_refl) Ha) as (n & Hn). eapply FO_none; eauto.
      apply IH; auto. intros; apply Hg; auto. right; auto.
Qed.

Lemma FirstO_map q m (h : outcome -> outcome) l o :
  (forall j c o n, Best n q (fst (h (j, c))) (snd (h (j, c))) o -> exists n', Best n' m j c o) ->
  FirstO q (map h l) o -> FirstO m l o.
Proof.
  intros Hh. revert o; induction l as [|[j c] l IH]; intros o H; cbn [map] in H.
  - inversion H; subst; constructor.
  - destruct (h (j, c)) as [j' c'] eqn:Eh.
    inversion H; subst.
    + match goal with H : Best ?n _ _ _ (Some _) |- _ => destruct (Hh j c (Some o0) n) as (n' & Hn'); [rewrite Eh; exact H|] end.
      eapply FO_some; eauto.
    + match goal with H : Best ?n _ _ _ None |- _ => destruct (Hh j c None n) as (n' & Hn'); [rewrite Eh; exact H|] end.
      eapply FO_none; eauto.
Qed.

Notation bt := (bt lower env at_start input).
Notation Mat := (Mat lower env at_start input).
Notation seg := (seg prog K).
Notation one := (one input).

(** ** The ordered semantics agrees with the relation *)

Lemma In_one p i c j c' : In (j, c') (one p i c) <-> char_ok input p i /\ j = S i /\ c' = c.
Proof.
  unfold RegexpSpec.one, char_ok. destruct (nth_error input i) as [a|].
  - destruct (p a) eqn:Ep; cbn.
    + split; [intros [E|[]]; inversion E; eauto|]. intros (_ & -> & ->); auto.
    + split; [intros []|]. intros ((b & Hb & Hp) & _). inversion Hb; congruence.
  - split; [intros []|]. intros ((b & Hb & Hp) & _). discriminate.
Qed.

Lemma In_test b i c j c' : In (j, c') (test b i c) <-> b = true /\ j = i /\ c' = c.
Proof.
  unfold test. destruct b; cbn.
  - split; [intros [E|[]]; inversion E; auto|intros (_ & -> & ->); auto].
  - split; [intros []|intros (E & _); discriminate].
Qed.

Lemma In_seq f g i c j c' : In (j, c') (seq f g i c) <->
  exists k c1, In (k, c1) (f i c) /\ In (j, c') (g k c1).
Proof.
  unfold seq. rewrite in_flat_map. split.
  - intros ([k c1] & H1 & H2). eauto.
  - intros (k & c1 & H1 & H2). exists (k, c1). auto.
Qed.

Lemma In_seqs (pk : char -> char -> bool) s : forall i c j c',
  In (j, c') (seqs (map (fun e => one (pk e)) s) i c) <->
  chars_ok input (map pk s) i /\ j = i + length s /\ c' = c.
Proof.
  induction s as [|e s IH]; intros i c j c'; cbn [map seqs].
  - cbn. rewrite Nat.add_0_r. split; [intros [E|[]]; inversion E; auto|intros (_ & -> & ->); auto].
  - rewrite In_seq. cbn [chars_ok]. split.
    + intros (k & c1 & H1 & H2). apply In_one in H1. destruct H1 as (Hc & -> & ->).
      apply IH in H2. destruct H2 as (Hcs & -> & ->). cbn [length]. split; [auto|]. split; [lia|auto].
    + intros ((Hc & Hcs) & -> & ->). exists (S i), c. split; [apply In_one; auto|].
      apply IH. cbn [length]. split; auto. split; [lia|auto].
Qed.

Lemma In_times a (Ha : forall i c j c', In (j, c') (bt a i c) -> Mat a i c j c') :
  forall n i c j c', In (j, c') (times n (bt a) i c) -> Mat (RRepeatExactly n a) i c j c'.
Proof.
  induction n as [|n IH]; intros i c j c' H; cbn [times] in H.
  - destruct H as [E|[]]. inversion E; subst. constructor.
  - apply In_seq in H. destruct H as (k & c1 & H1 & H2). eapply M_exactly_S; eauto.
Qed.

Lemma In_upto a (Ha : forall i c j c', In (j, c') (bt a i c) -> Mat a i c j c') :
  forall n i c j c', In (j, c') (upto n (bt a) i c) -> exists k, k <= n /\ Mat (RRepeatExactly k a) i c j c'.
Proof.
  induction n as [|n IH]; intros i c j c' H; cbn [upto] in H.
  - destruct H as [E|[]]. inversion E; subst. exists 0. split; [lia|constructor].
  - apply in_app_or in H. destruct H as [H|[E|[]]].
    + apply In_seq in H. destruct H as (k & c1 & H1 & H2).
      destruct (IH _ _ _ _ H2) as (k' & Hk & HM). exists (S k'). split; [lia|]. eapply M_exactly_S; eauto.
    + inversion E; subst. exists 0. split; [lia|constructor].
Qed.

Lemma bt_sound r : forall i c j c', In (j, c') (bt r i c) -> Mat r i c j c'.
Proof.
  induction r; intros i c0 j c0' H; cbn [RegexpSpec.bt] in H;
    try (apply In_one in H; destruct H as (H & -> & ->); constructor; exact H);
    try (apply (In_seqs N.eqb) in H; destruct H as (H & -> & ->); constructor; exact H);
    try (apply (In_seqs (fun e a => negb (N.eqb e a))) in H; destruct H as (H & -> & ->); constructor; exact H);
    try (apply (In_seqs (ci_eq lower)) in H; destruct H as (H & -> & ->); constructor; exact H);
    try (apply In_test in H; destruct H as (H & -> & ->)).
  - apply In_seq in H. destruct H as (k & c1 & H1 & H2). econstructor; eauto.
  - apply in_app_or in H. destruct H; [apply M_left|apply M_right]; auto.
  - apply in_app_or in H. destruct H as [H|[E|[]]]; [apply M_opt_some; auto|inversion E; subst; apply M_opt_none].
  - apply (In_upto r IHr) in H. destruct H as (k & _ & H). eapply M_star; eauto.
  - apply In_seq in H. destruct H as (k & c1 & H1 & H2).
    apply (In_upto r IHr) in H2. destruct H2 as (k' & _ & H2). eapply M_plus. eapply M_exactly_S; eauto.
  - apply (In_times r IHr); auto.
  - apply In_seq in H. destruct H as (k & c1 & H1 & H2). apply (In_times r IHr) in H1.
    apply (In_upto r IHr) in H2. destruct H2 as (k' & _ & H2).
    eapply (M_atleast _ _ _ _ n (n + k')); [lia|]. eapply Mat_rep_app; eauto.
  - destruct (Nat.leb_spec n m); [|destruct H].
    apply In_seq in H. destruct H as (k & c1 & H1 & H2). apply (In_times r IHr) in H1.
    apply (In_upto r IHr) in H2. destruct H2 as (k' & Hk' & H2).
    eapply (M_between _ _ _ _ n m (n + k')); [lia|lia|]. eapply Mat_rep_app; eauto.
  - apply in_map_iff in H. destruct H as ([j1 c1] & E & H). cbn [fst snd] in E. inversion E; subst.
    apply M_capture. auto.
  - constructor. unfold atom_var_eq. destruct (env v) as [y|]; [|discriminate]. apply N.eqb_eq in H. congruence.
  - constructor. unfold atom_var_ne. destruct (env v) as [y|]; [|discriminate].
    apply negb_true_iff, N.eqb_neq in H. eauto.
  - constructor. auto.
  - constructor.
  - constructor. apply Nat.eqb_eq. exact H.
  - constructor. apply negb_true_iff, Nat.eqb_neq in H. exact H.
  - constructor. apply andb_prop in H. rewrite Nat.eqb_eq in H. exact H.
  - constructor. intros [E1 E2]. rewrite E1, E2 in H. discriminate.
  - discriminate.
Qed.

Lemma consuming_iter a (Ha : forall i c j c', Mat a i c j c' -> i < j) n :
  n <> 0 -> forall i c j c', Mat (RRepeatExactly n a) i c j c' -> i < j.
Proof.
  destruct n as [|n]; [congruence|]. intros _ i c j c' H. inversion H; subst.
  match goal with H : Mat a _ _ _ _ |- _ => apply Ha in H end.
  match goal with H : Mat (RRepeatExactly n a) _ _ _ _ |- _ => apply Mat_le in H end. lia.
Qed.

Lemma consuming_Mat r : consuming r = true -> forall i c j c', Mat r i c j c' -> i < j.
Proof.
  induction r; cbn [consuming]; intros Hc i c0 j c0' H; try discriminate; inversion H; subst; try lia;
    try (destruct s as [|ch s]; [discriminate|cbn [length]; lia]).
  - apply orb_prop in Hc.
    match goal with H1 : Mat r1 _ _ _ _, H2 : Mat r2 _ _ _ _ |- _ =>
      pose proof (Mat_le _ _ _ _ _ _ _ _ _ H1); pose proof (Mat_le _ _ _ _ _ _ _ _ _ H2);
      destruct Hc as [Hc|Hc]; [apply (IHr1 Hc) in H1|apply (IHr2 Hc) in H2] end; lia.
  - apply andb_prop in Hc. destruct Hc. eapply IHr1; eauto.
  - apply andb_prop in Hc. destruct Hc. eapply IHr2; eauto.
  - eapply (consuming_iter r (IHr Hc)); [|eassumption]; discriminate.
  - discriminate.
  - apply andb_prop in Hc. destruct Hc as [_ Hc].
    eapply (consuming_iter r (IHr Hc) (S n0)); eauto.
  - apply andb_prop in Hc. destruct Hc as [Hn Hc]. apply negb_true_iff, Nat.eqb_neq in Hn.
    eapply (consuming_iter r (IHr Hc)); [|eassumption]; lia.
  - apply andb_prop in Hc. destruct Hc as [Hn Hc]. apply negb_true_iff, Nat.eqb_neq in Hn.
    eapply (consuming_iter r (IHr Hc)); [|eassumption]; lia.
  - eapply IHr; eauto.
  - eapply IHr; eauto.
Qed.

(** ** Compiled code finds the first outcome *)

Definition first_ok (S_ : nat -> nat -> Prop) (f : nat -> span -> list outcome) : Prop :=
  forall p q i c o, S_ p q -> i <= n_in -> FirstO q (f i c) o -> exists n, Best n p i c o.

Definition bounded (f : nat -> span -> list outcome) : Prop :=
  forall i c j c', i <= n_in -> In (j, c') (f i c) -> j <= n_in.

Definition forward (f : nat -> span -> list outcome) : Prop :=
  forall i c j c', In (j, c') (f i c) -> i < j.

Lemma best_eps1 pc x i c t n o : nth_error prog pc = Some x -> succs x pc i c = Some [t] ->
  Best n (fst t) i (snd t) o -> exists n', Best n' pc i c o.
Proof.
  intros Hx Hs Hb. destruct t as [q c']. cbn [fst snd] in Hb. destruct o as [z|].
  - eexists. eapply B_eps; eauto. eapply BL_some; eauto.
  - eexists. eapply B_eps; eauto. eapply BL_none; eauto. constructor.
Qed.

Lemma best_split pc a b i c n o :
  nth_error prog pc = Some (ISplit a b) -> Best n a i c o ->
  (o = None -> forall o', (exists m, Best m b i c o') -> exists m, Best m pc i c o') /\
  (forall z, o = Some z -> exists m, Best m pc i c (Some z)).
Proof.
  intros Hx Hb. split.
  - intros -> o' (m & Hm). destruct o' as [z|].
    + eexists. eapply B_eps; [exact Hx|reflexivity|]. eapply BL_none; eauto. eapply BL_some; eauto.
    + eexists. eapply B_eps; [exact Hx|reflexivity|]. eapply BL_none; eauto. eapply BL_none; eauto. constructor.
  - intros z ->. eexists. eapply B_eps; [exact Hx|reflexivity|]. eapply BL_some; eauto.
Qed.

Lemma rep_first (S_ : nat -> nat -> Prop) f : bounded f -> first_ok S_ f ->
  forall n, first_ok (rep_seg n S_) (times n f).
Proof.
  intros Hb Hf. induction n as [|n IH]; intros p q i c o Hs Hi H; cbn [rep_seg times] in *.
  - subst. apply FirstO_single in H. exact H.
  - destruct Hs as (m & H1 & H2). unfold seq in H.
    eapply Hf; eauto. eapply FirstO_flat_map; [|exact H].
    intros j c' o' Hin Ho'. eapply IH; eauto.
Qed.

Lemma star_first (S_ : nat -> nat -> Prop) f : bounded f -> forward f -> first_ok S_ f ->
  forall k p q i c o, star_seg prog S_ p q -> i <= n_in -> n_in - i < k ->
  FirstO q (upto k f i c) o -> exists n, Best n p i c o.
Proof.
  intros Hb Hfw Hf. induction k as [|k IH]; intros p q i c o Hs Hi Hk H; [lia|].
  pose proof Hs as (m & H1 & H2 & H3 & Hq). cbn [upto] in H.
  apply FirstO_app in H. unfold seq in H.
  assert (Hbody : forall o, FirstO q (flat_map (fun x => upto k f (fst x) (snd x)) (f i c)) o ->
                  exists n, Best n (S p) i c o).
  { intros o' Ho'. eapply Hf; eauto. eapply FirstO_flat_map; [|exact Ho'].
    intros j c' o2 Hin Ho2.
    assert (Hj : j <= n_in) by (eapply Hb; eauto). assert (i < j) by (eapply Hfw; eauto).
    destruct (IH p q j c' o2 Hs Hj) as (n & Hn); [lia|exact Ho2|].
    eapply best_eps1; [exact H3|reflexivity|exact Hn]. }
  destruct H as [(z & -> & Hz)|[Ha Hb']].
  - destruct (Hbody _ Hz) as (n & Hn). eapply (best_split _ _ _ _ _ _ _ H1 Hn); reflexivity.
  - destruct (Hbody _ Ha) as (n & Hn). apply FirstO_single in Hb'.
    eapply (best_split _ _ _ _ _ _ _ H1 Hn); auto.
Qed.

Lemma plus_first (S_ : nat -> nat -> Prop) f : bounded f -> forward f -> first_ok S_ f ->
  forall k p m i c o, S_ p m -> nth_error prog m = Some (ISplit p (S m)) ->
  i <= n_in -> n_in - i < k ->
  FirstO (S m) (upto k f i c) o -> exists n, Best n m i c o.
Proof.
  intros Hb Hfw Hf. induction k as [|k IH]; intros p m i c o Hs Hm Hi Hk H; [lia|].
  cbn [upto] in H. apply FirstO_app in H. unfold seq in H.
  assert (Hbody : forall o, FirstO (S m) (flat_map (fun x => upto k f (fst x) (snd x)) (f i c)) o ->
                  exists n, Best n p i c o).
  { intros o' Ho'. eapply Hf; eauto. eapply FirstO_flat_map; [|exact Ho'].
    intros j c' o2 Hin Ho2.
    assert (Hj : j <= n_in) by (eapply Hb; eauto). assert (i < j) by (eapply Hfw; eauto).
    eapply IH; eauto. lia. }
  destruct H as [(z & -> & Hz)|[Ha Hb']].
  - destruct (Hbody _ Hz) as (n & Hn). eapply (best_split _ _ _ _ _ _ _ Hm Hn); reflexivity.
  - destruct (Hbody _ Ha) as (n & Hn). apply FirstO_single in Hb'.
    eapply (best_split _ _ _ _ _ _ _ Hm Hn); auto.
Qed.

Lemma one_first (p : char -> bool) x pc i c o :
  nth_error prog pc = Some x ->
  (consumes x i = Some true <-> char_ok input p i) -> (exists b, consumes x i = Some b) ->
  FirstO (S pc) (one p i c) o -> exists n, Best n pc i c o.
Proof.
  intros Hx Hc (b & Hb) H. destruct b.
  - assert (Hok : char_ok input p i) by (apply Hc; exact Hb).
    unfold RegexpSpec.one in H. destruct Hok as (a & Ha & Hp). rewrite Ha, Hp in H.
    apply FirstO_single in H. destruct H as (n & Hn). exists (S n). eapply B_ok; eauto.
  - assert (He : one p i c = []).
    { unfold RegexpSpec.one. destruct (nth_error input i) as [a|] eqn:Ea; [|reflexivity].
      destruct (p a) eqn:Ep; [|reflexivity]. assert (consumes x i = Some true) by (apply Hc; exists a; auto). congruence. }
    rewrite He in H. inversion H; subst. exists 0. eapply B_no; eauto.
Qed.

Lemma str_first (mk : char -> instr) (pk : char -> char -> bool) :
  (forall e j, consumes (mk e) j = Some true <-> char_ok input (pk e) j) ->
  (forall e j, exists b, consumes (mk e) j = Some b) ->
  forall s p q i c o, str_seg prog (map mk s) p q ->
  FirstO q (seqs (map (fun e => one (pk e)) s) i c) o -> exists n, Best n p i c o.
Proof.
  intros H1 H2. induction s as [|e s IH]; intros p q i c o Hs H; cbn [map str_seg seqs] in *.
  - subst. apply FirstO_single in H. exact H.
  - destruct Hs as [Ha Hs]. unfold seq in H. eapply (one_first (pk e)); eauto.
    eapply FirstO_flat_map; [|exact H]. intros j c' o' Hin Ho'. eapply IH; eauto.
Qed.

Lemma test_first b pc x i c o :
  nth_error prog pc = Some x -> succs x pc i c = Some (if b : bool then [(pc + 1, c)] else []) ->
  FirstO (S pc) (test b i c) o -> exists n, Best n pc i c o.
Proof.
  intros Hx Hs H. unfold test in H. destruct b.
  - apply FirstO_single in H. destruct H as (n & Hn). eapply best_eps1; eauto.
    cbn [fst snd]. rewrite Nat.add_1_r. exact Hn.
  - inversion H; subst. exists 1. eapply B_eps; eauto. constructor.
Qed.

Lemma bt_bounded r : bounded (bt r).
Proof. intros i c j c' Hi H. apply bt_sound in H. eapply Mat_end; eauto. Qed.

Lemma bt_forward r : consuming r = true -> forward (bt r).
Proof. intros Hc i c j c' H. apply bt_sound in H. eapply consuming_Mat; eauto. Qed.

Ltac some_b := intros; unfold RegexpVM.consumes, accepts; destruct (nth_error input _); cbn; eauto.

Lemma seg_first r : no_range r = true -> loops_consume r = true -> first_ok (seg r) (bt r).
Proof.
  induction r; cbn [no_range loops_consume]; intros Hnr Hlc p q i c0 o Hs Hi H; try discriminate;
    try (apply andb_prop in Hnr; destruct Hnr as [Hnr1 Hnr2]);
    try (apply andb_prop in Hlc; destruct Hlc as [Hlc1 Hlc2]);
    cbn [RegexpCode.seg RegexpSpec.bt] in *.
  - destruct Hs as [Ha ->]. eapply (one_first (N.eqb c)); eauto; [apply consumes_char|some_b].
  - destruct Hs as (m & H1 & H2). unfold seq in H. eapply IHr1; eauto.
    eapply FirstO_flat_map; [|exact H]. intros j c' o' Hin Ho'.
    eapply IHr2; eauto. eapply bt_bounded; eauto.
  - destruct Hs as (m & H1 & H2 & H3 & H4). apply FirstO_app in H.
    assert (Hbody : forall o, FirstO q (bt r1 i c0) o -> exists n, Best n (S p) i c0 o).
    { intros o' Ho'. eapply IHr1; eauto.
      eapply (FirstO_map q m (fun x => x)); [|rewrite map_id; exact Ho'].
      intros j c' o2 n Hn. eapply best_eps1; [exact H3|reflexivity|exact Hn]. }
    destruct H as [(z & -> & Hz)|[Ha Hb]].
    + destruct (Hbody _ Hz) as (n & Hn). eapply (best_split _ _ _ _ _ _ _ H1 Hn); reflexivity.
    + destruct (Hbody _ Ha) as (n & Hn). eapply (best_split _ _ _ _ _ _ _ H1 Hn); auto. eapply IHr2; eauto.
  - destruct Hs as (H1 & H2). apply FirstO_app in H.
    destruct H as [(z & -> & Hz)|[Ha Hb]].
    + destruct (IHr Hnr Hlc _ _ _ _ _ H2 Hi Hz) as (n & Hn). eapply (best_split _ _ _ _ _ _ _ H1 Hn); reflexivity.
    + destruct (IHr Hnr Hlc _ _ _ _ _ H2 Hi Ha) as (n & Hn). apply FirstO_single in Hb.
      eapply (best_split _ _ _ _ _ _ _ H1 Hn); auto.
  - eapply star_first; [apply (bt_bounded r)|apply (bt_forward r); auto|apply IHr; auto|exact Hs|exact Hi|apply Nat.lt_succ_diag_r|exact H].
  - destruct Hs as (m & H1 & H2 & ->). unfold seq in H. eapply IHr; eauto.
    eapply FirstO_flat_map; [|exact H]. intros j c' o' Hin Ho'.
    assert (j <= n_in) by (eapply bt_bounded; eauto).
    eapply plus_first; [apply (bt_bounded r)|apply (bt_forward r); auto|apply IHr; auto|exact H1|exact H2|auto|apply Nat.lt_succ_diag_r|exact Ho'].
  - destruct Hs as [Ha ->]. eapply (one_first (fun _ => true)); eauto; [apply consumes_any|some_b].
  - destruct Hs as (k & Ha & Hk & ->). eapply (one_first (fun a => mem a cs)); eauto; [apply consumes_class; auto|].
    unfold RegexpVM.consumes, accepts. destruct (nth_error input i); [rewrite Hk|]; cbn; eauto.
  - destruct Hs as (k & Ha & Hk & ->). eapply (one_first (fun a => negb (mem a cs))); eauto; [apply consumes_nclass; auto|].
    unfold RegexpVM.consumes, accepts. destruct (nth_error input i); [rewrite Hk|]; cbn; eauto.
  - eapply rep_first; eauto. apply bt_bounded.
  - destruct Hs as (m & H1 & H2). unfold seq in H.
    eapply (rep_first (seg r) (bt r)); eauto; [apply bt_bounded|].
    eapply FirstO_flat_map; [|exact H]. intros j c' o' Hin Ho'.
    assert (Hj : j <= n_in).
    { apply (In_times r (bt_sound r)) in Hin. eapply Mat_end; eauto. }
    eapply star_first; [apply (bt_bounded r)|apply (bt_forward r); auto|apply IHr; auto|exact H2|exact Hj|apply Nat.lt_succ_diag_r|exact Ho'].
  - destruct Hs as (m & H1 & H2 & H3 & ->).
    apply (FirstO_map _ m) in H.
    + destruct (IHr Hnr Hlc _ _ _ _ _ H2 Hi H) as (n & Hn).
      eapply best_eps1; [exact H1|reflexivity|]. cbn [fst snd]. rewrite Nat.add_1_r. exact Hn.
    + intros j c' o' n Hn. cbn [fst snd] in Hn.
      eapply best_eps1; [exact H3|reflexivity|]. cbn [fst snd]. rewrite Nat.add_1_r. exact Hn.
  - eapply (str_first IChar N.eqb); eauto; [apply consumes_char|some_b].
  - eapply (str_first INotChar (fun e a => negb (N.eqb e a))); eauto; [apply consumes_nchar|some_b].
  - eapply (str_first ICIChar (ci_eq lower)); eauto; [apply consumes_cichar|some_b].
  - destruct Hs as [Ha ->]. eapply test_first; eauto. reflexivity.
  - destruct Hs as [Ha ->]. eapply test_first; eauto. reflexivity.
  - eapply IHr; eauto.
  - subst. apply FirstO_single in H. exact H.
  - destruct Hs as [Ha ->]. eapply test_first; eauto. reflexivity.
  - destruct Hs as [Ha ->]. eapply test_first; eauto. reflexivity.
  - destruct Hs as [Ha ->]. eapply test_first; eauto. reflexivity.
  - destruct Hs as [Ha ->]. eapply test_first; eauto. reflexivity.
  - destruct Hs as [Ha ->]. inversion H; subst. exists 1. eapply B_eps; [exact Ha|reflexivity|constructor].
Qed.

End Prio.

(** What a backtracking matcher reports. *)
Definition bt_first lower env at_start r input : option found :=
  match bt lower env at_start input r 0 (0, 0) with
  | [] => None
  | (j, (s, e)) :: _ => Some (report input s e j)
  end.

Theorem find_first_no_range lower env at_start r input :
  no_range r = true -> loops_consume r = true ->
  regexp_find lower r env at_start input = Ok (bt_first lower env at_start r input).
Proof.
  intros Hnr Hlc. unfold regexp_find, bt_first.
  destruct (compile_seg r) as (q & Hseg & Hm & Hl).
  set (prog := fst (compile r)) in *. set (K := snd (compile r)) in *.
  pose (o := match bt lower env at_start input r 0 (0,0) with
             | [] => None | (j, c) :: _ => Some (c, j, 0) end : option runres).
  assert (HF : FirstO lower env at_start prog K input q (bt lower env at_start input r 0 (0,0)) o).
  { unfold o. destruct (bt lower env at_start input r 0 (0,0)) as [|[j c] l]; [constructor|].
    eapply FO_some. apply B_match. exact Hm. }
  destruct (seg_first lower env at_start prog K input r Hnr Hlc 0 q 0 (0,0) o Hseg (Nat.le_0_l _) HF) as (n & Hn).
  pose proof (vm_first lower env at_start prog K input (compile_wf r) n o Hn) as E.
  unfold find_anchored.
  destruct (add_thread env at_start prog (at_fuel prog) ([], []) 0 (0, 0) 0 (blen input)) as [tl| |] eqn:Et;
    cbn [bind] in E |- *; try discriminate.
  rewrite E. cbn [bind]. unfold o. clear o HF Hn E.
  destruct (bt lower env at_start input r 0 (0,0)) as [|[j [s e]] l] eqn:Eb; cbn [enc option_map]; [reflexivity|].
  assert (HM : Mat lower env at_start input r 0 (0,0) j (s, e)).
  { apply bt_sound. rewrite Eb. left; reflexivity. }
  assert (Hj : j <= length input) by (eapply Mat_end; [|exact HM]; lia).
  assert (Hw : cwf (s, e) j) by (eapply Mat_cwf; [exact HM|split; simpl; lia]).
  destruct Hw as [Hw1 Hw2]; cbn [fst snd] in *.
  unfold bcap. cbn [fst snd].
  rewrite slice_boff by lia. cbn [opt_res bind].
  rewrite slice_to_boff by lia. cbn [opt_res bind].
  unfold report. rewrite firstn_length. do 3 f_equal. lia.
Qed.

Theorem find_first lower env at_start r input :
  loops_consume (as_compiled r) = true ->
  regexp_find lower r env at_start input = Ok (bt_first lower env at_start (as_compiled r) input).
Proof.
  intros H. rewrite regexp_find_as_compiled. apply find_first_no_range; [apply no_range_as_compiled|exact H].
Qed.
