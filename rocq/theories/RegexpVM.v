(** Properties of the virtual machine, independent of where the byte code comes
    from: safety, bounded work, agreement with runs, and priority. *)
From Verif Require Import Base BaseProofs RegexpModel RegexpSpec.

Section VMProofs.
Variable lower : char -> list char.
Variable env : N -> option N.
Variable at_start : bool.
Variable prog : list instr.
Variable K : list (list char).
Variable input : str.

Notation n_in := (length input).

(** Epsilon successors of an instruction at char position [i], in priority
    order; [None] for instructions that end the closure. *)
Definition succs (x : instr) (pc i : nat) (c : span) : option (list (nat * span)) :=
  let go (b : bool) := Some (if b then [(pc + 1, c)] else []) in
  match x with
  | IJump t => Some [(t, c)]
  | ISplit a b => Some [(a, c); (b, c)]
  | ICapStart => Some [(pc + 1, (i, 0))]
  | ICapEnd => Some [(pc + 1, (fst c, i))]
  | IVarEq v y => go (match env v with Some z => N.eqb z y | None => false end)
  | INotVarEq v y => go (match env v with Some z => negb (N.eqb z y) | None => false end)
  | IAssertEnd => go (Nat.eqb i n_in)
  | IAssertMore => go (negb (Nat.eqb i n_in))
  | IAssertStart => go (at_start && Nat.eqb i 0)
  | IAssertNotStart => go (negb (at_start && Nat.eqb i 0))
  | IFail => Some []
  | _ => None
  end.

Definition bcap (c : span) : nat * nat := (boff input (fst c), boff input (snd c)).

Definition addt (f : nat) (tl : tlist) (i : nat) (t : nat * span) : res tlist :=
  add_thread env at_start prog f tl (fst t) (bcap (snd t)) (boff input i) (blen input).

Fixpoint addl (f : nat) (tl : tlist) (i : nat) (ts : list (nat * span)) : res tlist :=
  match ts with
  | [] => Ok tl
  | t :: r => do tl <- addt f tl i t; addl f tl i r
  end.

Lemma bind_ok {A} (x : res A) : bind x (fun a => Ok a) = x.
Proof. destruct x; reflexivity. Qed.

Lemma addt_unfold f tl i pc c :
  i <= n_in ->
  addt (S f) tl i (pc, c) =
    if seenb pc (snd tl) then Ok tl else
    match nth_error prog pc with
    | None => Panic
    | Some x =>
      match succs x pc i c with
      | Some l => addl f (fst tl, pc :: snd tl) i l
      | None => Ok (fst tl ++ [(pc, bcap c)], pc :: snd tl)
      end
    end.
Proof.
  intros Hi. unfold addt. cbn [add_thread fst snd].
  destruct (seenb pc (snd tl)); [reflexivity|].
  destruct (nth_error prog pc) as [x|]; [|reflexivity].
  destruct x; cbn [succs addl bind addt fst snd]; try reflexivity;
    unfold addt; cbn [fst snd];
    rewrite ?(boff_eq_end input i Hi), ?(boff_eq_0 input i Hi);
    try (rewrite bind_ok; reflexivity).
  - destruct (add_thread env at_start prog f (fst tl, pc :: snd tl) a (bcap c) (boff input i) (blen input)) as [tl'| |]; cbn [bind]; rewrite ?bind_ok; reflexivity.
  - destruct (env v) as [z|]; cbn [addl]; [|reflexivity].
    destruct (N.eqb z x); cbn [addl]; rewrite ?bind_ok; reflexivity.
  - destruct (env v) as [z|]; cbn [addl]; [|reflexivity].
    destruct (negb (N.eqb z x)); cbn [addl]; rewrite ?bind_ok; reflexivity.
  - destruct (Nat.eqb i n_in); cbn [addl]; rewrite ?bind_ok; reflexivity.
  - destruct (negb (Nat.eqb i n_in)); cbn [addl]; rewrite ?bind_ok; reflexivity.
  - destruct (at_start && Nat.eqb i 0); cbn [addl]; rewrite ?bind_ok; reflexivity.
  - destruct (negb (at_start && Nat.eqb i 0)); cbn [addl]; rewrite ?bind_ok; reflexivity.
Qed.

(** Well-formed programs: every jump target and fall-through stays in range and
    every class index exists. *)
Definition instr_ok (pc : nat) (x : instr) : Prop :=
  match x with
  | IMatch _ => True
  | IJump t => t < length prog
  | ISplit a b => a < length prog /\ b < length prog
  | IClass k | INotClass k => S pc < length prog /\ k < length K
  | IFail => True
  | _ => S pc < length prog
  end.

Definition wf : Prop :=
  0 < length prog /\ forall pc x, nth_error prog pc = Some x -> instr_ok pc x.

Hypothesis Hwf : wf.

Lemma succs_in_range x pc i c l :
  nth_error prog pc = Some x -> succs x pc i c = Some l ->
  forall t, In t l -> fst t < length prog.
Proof.
  intros Hx Hs t Ht. pose proof (proj2 Hwf _ _ Hx) as Hok.
  destruct x; cbn in Hs, Hok; inversion Hs; subst; clear Hs; try discriminate;
    try match type of Ht with In _ (if ?b then _ else _) => destruct b end;
    cbn [In] in Ht;
    repeat match goal with H : _ \/ _ |- _ => destruct H end; subst; cbn [fst] in *;
      try contradiction; lia.
Qed.

(** Successor pcs do not depend on the capture. *)
Lemma succs_pcs x pc i c c' :
  match succs x pc i c, succs x pc i c' with
  | Some l, Some l' => map fst l = map fst l'
  | None, None => True
  | _, _ => False
  end.
Proof.
  destruct x; cbn [succs map fst]; auto;
  match goal with |- context [if ?b then _ else _] => destruct b end; reflexivity.
Qed.

Definition seen_ok (s : list nat) : Prop :=
  NoDup s /\ forall p, In p s -> p < length prog.

Lemma seen_ok_len s : seen_ok s -> length s <= length prog.
Proof.
  intros [H1 H2].
  rewrite <- (seq_length (length prog) 0).
  apply NoDup_incl_length; [exact H1|].
  intros p Hp. apply in_seq. specialize (H2 p Hp). lia.
Qed.

Lemma seenb_In p s : seenb p s = true <-> In p s.
Proof.
  unfold seenb. rewrite existsb_exists. split.
  - intros (x & H1 & H2). apply Nat.eqb_eq in H2. subst; exact H1.
  - intros H. exists p. rewrite Nat.eqb_refl. auto.
Qed.

(** Is [t'] reachable from [t] through epsilon steps at position [i]? *)
Inductive EpsStar (i : nat) : nat * span -> nat * span -> Prop :=
| ES_refl : forall t, EpsStar i t t
| ES_step : forall pc c x l t t',
    nth_error prog pc = Some x -> succs x pc i c = Some l -> In t l ->
    EpsStar i t t' -> EpsStar i (pc, c) t'.

(** [closed]: every seen pc not under construction has all its successors seen,
    and is a thread if it ends the closure. *)
Definition closed (i : nat) (P : list nat) (tl : tlist) : Prop :=
  forall p, In p (snd tl) -> ~ In p P ->
    exists x, nth_error prog p = Some x /\
      match succs x p i (0, 0) with
      | Some l => forall q, In q (map fst l) -> In q (snd tl)
      | None => In p (map fst (fst tl))
      end.

(** Everything [add_thread] guarantees, except priority. *)
Definition add_post (i : nat) (tl tl' : tlist) (ts : list (nat * span)) : Prop :=
  seen_ok (snd tl') /\ incl (snd tl) (snd tl') /\
  (forall t, In t ts -> In (fst t) (snd tl')) /\
  (exists new, fst tl' = fst tl ++ new /\
     forall th, In th new ->
        In (fst th) (snd tl') /\
        exists t c, In t ts /\ snd th = bcap c /\ EpsStar i t (fst th, c) /\
          exists x, nth_error prog (fst th) = Some x /\ succs x (fst th) i (0,0) = None) /\
  (forall P, closed i P tl -> closed i P tl').

Lemma add_spec : forall fuel i, i <= n_in ->
  (forall tl t, seen_ok (snd tl) -> fst t < length prog ->
     length prog - length (snd tl) < fuel ->
     exists tl', addt fuel tl i t = Ok tl' /\ add_post i tl tl' [t]) /\
  (forall ts tl, seen_ok (snd tl) -> (forall t, In t ts -> fst t < length prog) ->
     length prog - length (snd tl) < fuel ->
     exists tl', addl fuel tl i ts = Ok tl' /\ add_post i tl tl' ts).
Proof.
  induction fuel as [|f IH]; intros i Hi; [split; intros; lia|].
  assert (Hone : forall tl t, seen_ok (snd tl) -> fst t < length prog ->
     length prog - length (snd tl) < S f ->
     exists tl', addt (S f) tl i t = Ok tl' /\ add_post i tl tl' [t]).
  { intros tl [pc c] Hs Hp Hf. cbn [fst] in Hp. rewrite addt_unfold by exact Hi.
    destruct (seenb pc (snd tl)) eqn:Eseen.
    - exists tl. split; [reflexivity|]. apply seenb_In in Eseen.
      unfold add_post. repeat split; auto.
      + apply Hs. + apply Hs.
      + apply incl_refl.
      + intros t [<-|[]]. exact Eseen.
      + exists []. rewrite app_nil_r. split; auto. intros th [].
    - assert (Hni : ~ In pc (snd tl)) by (intros Hc; apply seenb_In in Hc; congruence).
      destruct (nth_error prog pc) as [x|] eqn:Ex.
      2:{ apply nth_error_None in Ex. lia. }
      set (tl1 := (fst tl, pc :: snd tl)).
      assert (Hs1 : seen_ok (snd tl1)).
      { destruct Hs as [Hs1 Hs2]. split; cbn [snd tl1].
        - constructor; auto. - intros p [<-|Hp']; auto. }
      destruct (succs x pc i c) as [l|] eqn:El.
      + destruct (IH i Hi) as [_ IHl].
        destruct (IHl l tl1 Hs1) as (tl' & E' & Hpost).
        { eapply succs_in_range; eassumption. }
        { pose proof (seen_ok_len _ Hs1). unfold tl1 in *; cbn [snd length] in *. lia. }
        exists tl'. split; [exact E'|].
        destruct Hpost as (P1 & P2 & P3 & (new & Pn & P4) & P5).
        unfold add_post. repeat split; auto.
        * apply P1. * apply P1.
        * intros p Hpp. apply P2. unfold tl1; cbn [snd]. right; exact Hpp.
        * intros t [<-|[]]. apply P2. unfold tl1; cbn [snd fst]. left; reflexivity.
        * exists new. split; [exact Pn|].
          intros th Hth. destruct (P4 th Hth) as (Q1 & t & c' & Q2 & Q3 & Q4 & Q5).
          split; [exact Q1|]. exists (pc, c), c'. repeat split; auto.
          { left; reflexivity. }
          eapply ES_step; eassumption.
        * intros P Hcl.
          assert (Hcl1 : closed i (pc :: P) tl1).
          { intros p Hpin HpP. unfold tl1 in Hpin; cbn [snd] in Hpin.
            destruct Hpin as [<-|Hpin]; [exfalso; apply HpP; left; reflexivity|].
            destruct (Hcl p Hpin) as (y & Hy1 & Hy2); [intros Hc; apply HpP; right; exact Hc|].
            exists y. split; [exact Hy1|].
            destruct (succs y p i (0,0)); [|exact Hy2].
            intros q Hq. unfold tl1; cbn [snd]. right. apply Hy2. exact Hq. }
          specialize (P5 _ Hcl1).
          intros p Hpin HpP.
          destruct (Nat.eq_dec p pc) as [->|Hne].
          -- exists x. split; [exact Ex|].
             pose proof (succs_pcs x pc i c (0,0)) as Hpc. rewrite El in Hpc.
             destruct (succs x pc i (0, 0)) as [l0|]; [|contradiction].
             intros q Hq. rewrite <- Hpc in Hq. apply in_map_iff in Hq.
             destruct Hq as (t & <- & Ht). apply P3. exact Ht.
          -- apply P5; [exact Hpin|]. intros [->|Hc]; auto.
      + exists (fst tl ++ [(pc, bcap c)], pc :: snd tl). split; [reflexivity|].
        unfold add_post. cbn [fst snd]. repeat split.
        * apply Hs1. * apply Hs1.
        * intros p Hpp; right; exact Hpp.
        * intros t [<-|[]]. left; reflexivity.
        * exists [(pc, bcap c)]. split; [reflexivity|].
          intros th [<-|[]]. cbn [fst snd]. split; [left; reflexivity|].
          exists (pc, c), c. repeat split.
          { left; reflexivity. }
          { apply ES_refl. }
          exists x. split; [exact Ex|].
          pose proof (succs_pcs x pc i c (0,0)) as Hpc. rewrite El in Hpc.
          destruct (succs x pc i (0,0)); [contradiction|reflexivity].
        * intros P Hcl p Hpin HpP. cbn [fst snd] in *.
          destruct Hpin as [<-|Hpin].
          -- exists x. split; [exact Ex|].
             pose proof (succs_pcs x pc i c (0,0)) as Hpc. rewrite El in Hpc.
             destruct (succs x pc i (0,0)); [contradiction|].
             rewrite map_app. apply in_or_app. right. left. reflexivity.
          -- destruct (Hcl p Hpin HpP) as (y & Hy1 & Hy2).
             exists y. split; [exact Hy1|].
             destruct (succs y p i (0,0)).
             ++ intros q Hq. right. apply Hy2. exact Hq.
             ++ rewrite map_app. apply in_or_app. left. exact Hy2. }
  split; [exact Hone|].
  induction ts as [|t ts IHts]; intros tl Hs Hr Hf.
  - exists tl. split; [reflexivity|]. unfold add_post. repeat split; auto.
    + apply Hs. + apply Hs. + apply incl_refl.
    + intros t [].
    + exists []. rewrite app_nil_r. split; auto. intros th [].
  - destruct (Hone tl t Hs) as (tl1 & E1 & (P1 & P2 & P3 & (new & Pn & P4) & P5)); auto.
    { apply Hr; left; reflexivity. }
    destruct (IHts tl1 P1) as (tl2 & E2 & (Q1 & Q2 & Q3 & (new2 & Qn & Q4) & Q5)).
    { intros t' Ht'. apply Hr. right; exact Ht'. }
    { destruct P1 as [Pa _]. pose proof (NoDup_incl_length (proj1 Hs) P2). lia. }
    exists tl2. cbn [addl]. rewrite E1. cbn [bind]. split; [exact E2|].
    unfold add_post. repeat split.
    + apply Q1. + apply Q1.
    + eapply incl_tran; eassumption.
    + intros t' [<-|Ht']; [|apply Q3; exact Ht'].
      apply Q2, P3. left; reflexivity.
    + exists (new ++ new2). rewrite Qn, Pn, app_assoc. split; [reflexivity|].
      intros th Hth. apply in_app_or in Hth. destruct Hth as [Hth|Hth].
      * destruct (P4 th Hth) as (R1 & t' & c' & R2 & R3).
        split; [apply Q2; exact R1|]. exists t', c'. split; [|exact R3].
        destruct R2 as [<-|[]]. left; reflexivity.
      * destruct (Q4 th Hth) as (R1 & t' & c' & R2 & R3).
        split; [exact R1|]. exists t', c'. split; [right; exact R2|exact R3].
    + intros P HP. apply Q5, P5, HP.
Qed.

(** [add_thread] with the fuel the model gives it. *)
Lemma addt_total tl i t :
  i <= n_in -> seen_ok (snd tl) -> fst t < length prog ->
  exists tl', addt (at_fuel prog) tl i t = Ok tl' /\ add_post i tl tl' [t].
Proof.
  intros Hi Hs Ht. apply (add_spec (at_fuel prog) i Hi); auto. unfold at_fuel. lia.
Qed.

(** ** Runs of the byte code *)

Definition runres := (span * nat * nat)%type.

Definition consumes (x : instr) (i : nat) : option bool := accepts lower K x (nth_error input i).

Inductive Run : nat -> nat -> nat -> span -> runres -> Prop :=
| R_match : forall pc i c t,
    nth_error prog pc = Some (IMatch t) -> Run 0 pc i c (c, i, t)
| R_eps : forall n pc i c x l t o,
    nth_error prog pc = Some x -> succs x pc i c = Some l -> In t l ->
    Run n (fst t) i (snd t) o -> Run (S n) pc i c o
| R_char : forall n pc i c x o,
    nth_error prog pc = Some x -> consumes x i = Some true ->
    Run n (S pc) (S i) c o -> Run (S n) pc i c o.

Lemma In_pcs x pc i c c' l l' t :
  succs x pc i c = Some l -> succs x pc i c' = Some l' -> In t l ->
  exists c'', In (fst t, c'') l'.
Proof.
  intros H1 H2 Ht. pose proof (succs_pcs x pc i c c') as Hp. rewrite H1, H2 in Hp.
  assert (Hin : In (fst t) (map fst l')) by (rewrite <- Hp; apply in_map; exact Ht).
  apply in_map_iff in Hin. destruct Hin as ([q c''] & Hq & Hin). cbn in Hq; subst.
  exists c''. exact Hin.
Qed.

Lemma succs_some x pc i c c' l : succs x pc i c = Some l -> exists l', succs x pc i c' = Some l'.
Proof.
  intros H. pose proof (succs_pcs x pc i c c') as Hp. rewrite H in Hp.
  destruct (succs x pc i c') as [l'|]; [exists l'; reflexivity|contradiction].
Qed.

Lemma Run_cap n pc i c o : Run n pc i c o -> forall c', exists o', Run n pc i c' o'.
Proof.
  induction 1 as [pc i c t Ht|n pc i c x l t o Hx Hs Hin Hr IH|n pc i c x o Hx Ha Hr IH]; intros c'.
  - eexists. apply R_match. exact Ht.
  - destruct (succs_some _ _ _ _ c' _ Hs) as (l' & Hl').
    destruct (In_pcs _ _ _ _ _ _ _ _ Hs Hl' Hin) as (c'' & Hin').
    destruct (IH c'') as (o' & Ho').
    exists o'. eapply R_eps; eauto.
  - destruct (IH c') as (o' & Ho'). exists o'. eapply R_char; eauto.
Qed.

Lemma Run_EpsStar i t t' o n :
  EpsStar i t t' -> Run n (fst t') i (snd t') o -> exists m, Run m (fst t) i (snd t) o.
Proof.
  induction 1 as [t|pc c x l t t' Hx Hs Hin He IH]; intros Hr.
  - exists n. exact Hr.
  - destruct (IH Hr) as (m & Hm). exists (S m). cbn [fst snd]. eapply R_eps; eauto.
Qed.

(** A run from a seen pc of a closed list starts at one of its threads. *)
Lemma Run_thread i tl : closed i [] tl -> forall n pc c o,
  Run n pc i c o -> In pc (snd tl) ->
  exists m q c' o', In q (map fst (fst tl)) /\ Run m q i c' o' /\
    (exists x, nth_error prog q = Some x /\ succs x q i (0,0) = None).
Proof.
  intros Hcl n pc c o Hr. remember i as i0 eqn:Ei in Hr.
  induction Hr as [pc i' c t Ht|n pc i' c x l t o Hx Hs Hin Hr IH|n pc i' c x o Hx Ha Hr IH]; subst; intros Hseen.
  - destruct (Hcl pc Hseen (fun H => H)) as (x & Hx & Hm).
    rewrite Ht in Hx; inversion Hx; subst. cbn [succs] in Hm.
    exists 0, pc, c, (c, i, t). split; [exact Hm|]. split; [apply R_match; exact Ht|].
    exists (IMatch t). auto.
  - destruct (Hcl pc Hseen (fun H => H)) as (x' & Hx' & Hm).
    rewrite Hx in Hx'; inversion Hx'; subst x'.
    destruct (succs_some _ _ _ _ (0,0) _ Hs) as (l0 & Hl0). rewrite Hl0 in Hm.
    destruct (In_pcs _ _ _ _ _ _ _ _ Hs Hl0 Hin) as (c0 & Hin0).
    apply IH; auto. apply Hm. change (fst t) with (fst (fst t, c0)). apply in_map. exact Hin0.
  - destruct (Hcl pc Hseen (fun H => H)) as (x' & Hx' & Hm).
    rewrite Hx in Hx'; inversion Hx'; subst x'.
    assert (Hn : succs x pc i (0,0) = None).
    { unfold consumes, accepts in Ha. destruct x; try reflexivity; discriminate. }
    rewrite Hn in Hm.
    exists (S n), pc, c, o. split; [exact Hm|]. split; [eapply R_char; eauto|].
    exists x. auto.
Qed.

(** ** Invariant of the main loop *)

Definition start_reaches (i : nat) (th : thread) : Prop :=
  exists c, snd th = bcap c /\
    (forall n o, Run n (fst th) i c o -> exists m, Run m 0 0 (0, 0) o).

Definition thread_ok (i : nat) (th : thread) : Prop :=
  fst th < length prog /\
  exists x, nth_error prog (fst th) = Some x /\ succs x (fst th) i (0,0) = None.

Definition matched_ok (m : matched) : Prop :=
  match m with
  | None => True
  | Some (bc, len, t) => exists c n, bc = bcap c /\ Run n 0 0 (0,0) (c, len, t)
  end.

Lemma accepts_total x pc i :
  nth_error prog pc = Some x -> succs x pc i (0,0) = None ->
  (exists t, x = IMatch t) \/
  (exists b, consumes x i = Some b /\ (b = true -> S pc < length prog /\ i < n_in)).
Proof.
  intros Hx Hs. pose proof (proj2 Hwf _ _ Hx) as Hok.
  assert (Hsome : forall a, nth_error input i = Some a -> i < n_in).
  { intros a Ha. apply nth_error_Some. congruence. }
  unfold consumes, accepts.
  destruct x; cbn [succs] in Hs; try discriminate; try (left; eexists; reflexivity); right;
    cbn [instr_ok] in Hok;
    destruct (nth_error input i) as [a|] eqn:Ea;
    try (eexists; split; [reflexivity|]; intros Hb; first [discriminate | split; [apply Hok|eapply Hsome; reflexivity]]).
  - destruct Hok as [Hok1 Hok2]. apply nth_error_Some in Hok2.
    destruct (nth_error K k) as [cs|]; [|congruence].
    cbn. eexists; split; [reflexivity|]. intros _. split; [exact Hok1|eapply Hsome; reflexivity].
  - destruct Hok as [Hok1 Hok2]. apply nth_error_Some in Hok2.
    destruct (nth_error K k) as [cs|]; [|congruence].
    cbn. eexists; split; [reflexivity|]. intros _. split; [exact Hok1|eapply Hsome; reflexivity].
Qed.

Notation step := (step_threads lower env at_start prog K).

Lemma step_cons pc cap r i m next :
  i <= n_in -> thread_ok i (pc, cap) ->
  (exists t, nth_error prog pc = Some (IMatch t) /\
     step ((pc, cap) :: r) (nth_error input i) (boff input i) (blen input) i next m
       = Ok (next, Some (cap, i, t))) \/
  (exists x, nth_error prog pc = Some x /\ consumes x i = Some false /\
     step ((pc, cap) :: r) (nth_error input i) (boff input i) (blen input) i next m
       = step r (nth_error input i) (boff input i) (blen input) i next m) \/
  (exists x, nth_error prog pc = Some x /\ consumes x i = Some true /\
     S pc < length prog /\ i < n_in /\
     step ((pc, cap) :: r) (nth_error input i) (boff input i) (blen input) i next m
       = do next' <- add_thread env at_start prog (at_fuel prog) next (S pc) cap
                       (boff input (S i)) (blen input);
         step r (nth_error input i) (boff input i) (blen input) i next' m).
Proof.
  intros Hi (Hlt & x & Hx & Hs). cbn [fst] in *.
  destruct (accepts_total x pc i Hx Hs) as [(t & ->)|(b & Hb & Hbt)].
  - left. exists t. cbn [step_threads]. rewrite Hx. auto.
  - right. destruct b.
    + right. exists x. destruct (Hbt eq_refl) as [H1 H2]. repeat split; auto.
      cbn [step_threads]. rewrite Hx.
      unfold consumes in Hb.
      destruct (nth_error input i) as [a|] eqn:Ea.
      2:{ apply nth_error_None in Ea. lia. }
      rewrite (boff_S _ _ _ Ea). rewrite Nat.add_1_r.
      destruct x; try (cbn in Hb; discriminate); rewrite Hb; reflexivity.
    + left. exists x. repeat split; auto. cbn [step_threads]. rewrite Hx.
      unfold consumes in Hb.
      destruct x; try (cbn in Hb; discriminate); rewrite Hb; reflexivity.
Qed.

(** One step of the machine. *)
Lemma step_spec : forall ts i next m,
  i <= n_in ->
  (forall th, In th ts -> thread_ok i th /\ start_reaches i th) ->
  seen_ok (snd next) ->
  (forall th, In th (fst next) -> thread_ok (S i) th /\ start_reaches (S i) th) ->
  closed (S i) [] next ->
  matched_ok m ->
  exists next' m',
    step ts (nth_error input i) (boff input i) (blen input) i next m = Ok (next', m') /\
    (forall th, In th (fst next') -> thread_ok (S i) th /\ start_reaches (S i) th) /\
    matched_ok m' /\
    (* completeness *)
    ((m' = m /\ closed (S i) [] next' /\ incl (snd next) (snd next') /\
      (forall th x, In th ts -> nth_error prog (fst th) = Some x -> consumes x i = Some true ->
          In (S (fst th)) (snd next')) /\
      (forall th t, In th ts -> nth_error prog (fst th) <> Some (IMatch t)))
     \/ (exists y, m' = Some y)).
Proof.
  induction ts as [|[pc cap] ts IH]; intros i next m Hi Hts Hseen Hnext Hcl Hm.
  - exists next, m. cbn [step_threads]. split; [reflexivity|]. split; [exact Hnext|]. split; [exact Hm|].
    left. split; [reflexivity|]. split; [exact Hcl|]. split; [apply incl_refl|].
    split; [intros th x []|intros th t []].
  - destruct (Hts (pc, cap) (or_introl eq_refl)) as [Hok Hsr].
    destruct (step_cons pc cap ts i m next Hi Hok) as
      [(t & Hx & E)|[(x & Hx & Ha & E)|(x & Hx & Ha & Hlt & Hin & E)]].
    + exists next, (Some (cap, i, t)). split; [exact E|]. split; [exact Hnext|]. split.
      * destruct Hsr as (c & Hc & Hr). cbn [fst snd] in *.
        destruct (Hr 0 (c, i, t)) as (k & Hk); [apply R_match; exact Hx|].
        exists c, k. auto.
      * right. eauto.
    + destruct (IH i next m Hi) as (next' & m' & E' & Q1 & Q2 & Q3); auto.
      { intros th Hth; apply Hts; right; exact Hth. }
      exists next', m'. split; [etransitivity; [exact E|exact E']|]. split; [exact Q1|]. split; [exact Q2|].
      destruct Q3 as [(R1 & R2 & R3 & R4 & R5)|R]; [left|right; exact R].
      split; [exact R1|]. split; [exact R2|]. split; [exact R3|]. split.
      * intros th y [<-|Hth] Hy Hc; [cbn [fst] in *; congruence|eapply R4; eassumption].
      * intros th t [<-|Hth] Hy; [|eapply R5; eassumption].
        cbn [fst] in Hy. rewrite Hx in Hy; inversion Hy; subst. cbn in Ha. discriminate.
    + destruct Hsr as (c & Hc & Hr). cbn [fst snd] in *. subst cap.
      destruct (addt_total next (S i) (S pc, c)) as (n1 & E1 & (P1 & P2 & P3 & (new & Pn & P4) & P5)); auto.
      unfold addt in E1. cbn [fst snd] in E1.
      destruct (IH i n1 m Hi) as (next' & m' & E' & Q1 & Q2 & Q3); auto.
      { intros th Hth; apply Hts; right; exact Hth. }
      { rewrite Pn. intros th Hth. apply in_app_or in Hth. destruct Hth as [Hth|Hth]; [apply Hnext; exact Hth|].
        destruct (P4 th Hth) as (S1 & t & c' & [<-|[]] & S3 & S4 & S5).
        split.
        - split; [|exact S5]. apply P1. exact S1.
        - exists c'. split; [exact S3|]. intros k o Ho.
          destruct (Run_EpsStar _ _ _ o k S4) as (k' & Hk'). { exact Ho. }
          cbn [fst snd] in Hk'. apply (Hr (S k')). eapply R_char; eassumption. }
      exists next', m'. split; [etransitivity; [exact E|rewrite E1; exact E']|]. split; [exact Q1|]. split; [exact Q2|].
      destruct Q3 as [(R1 & R2 & R3 & R4 & R5)|R]; [left|right; exact R].
      split; [exact R1|]. split; [exact R2|]. split; [eapply incl_tran; eassumption|]. split.
      * intros th y [<-|Hth] Hy Hcn; [|eapply R4; eassumption].
        cbn [fst]. apply R3. apply (P3 (S pc, c)). left; reflexivity.
      * intros th t [<-|Hth] Hy; [|eapply R5; eassumption].
        cbn [fst] in Hy. rewrite Hx in Hy; inversion Hy; subst. cbn in Ha. discriminate.
Qed.

Notation loop := (vm_loop lower env at_start prog K).

Lemma seen_ok_nil : seen_ok [].
Proof. split; [constructor|intros p []]. Qed.

Lemma closed_nil i P : closed i P ([], []).
Proof. intros p []. Qed.

Lemma loop_unfold f i cur m :
  i <= n_in -> cur <> [] ->
  loop (S f) input (boff input i) i cur m =
    do (next, m') <- step cur (nth_error input i) (boff input i) (blen input) i ([], []) m;
    match nth_error input i with
    | None => Ok m'
    | Some c => loop f input (boff input (S i)) (S i) (fst next) m'
    end.
Proof.
  intros Hi Hc. cbn [vm_loop]. destruct cur as [|th cur]; [congruence|].
  rewrite slice_from_boff by exact Hi. rewrite hd_skipn.
  destruct (step_threads _ _ _ _ _ _ _ _ _ _ _ _) as [[next m']| |]; cbn [bind]; try reflexivity.
  destruct (nth_error input i) as [c|] eqn:E; [|reflexivity].
  rewrite (boff_S _ _ _ E). reflexivity.
Qed.

(** The loop never panics, never runs out of fuel, and only ever reports real
    runs; if some thread has an accepting run it reports a match. *)
Lemma loop_spec : forall f i cur m,
  i <= n_in -> n_in - i < f ->
  (forall th, In th cur -> thread_ok i th /\ start_reaches i th) ->
  matched_ok m ->
  exists m', loop f input (boff input i) i cur m = Ok m' /\ matched_ok m' /\
    ((exists y, m = Some y) -> exists y, m' = Some y) /\
    ((exists th n c o, In th cur /\ Run n (fst th) i c o) -> exists y, m' = Some y).
Proof.
  induction f as [|f IH]; intros i cur m Hi Hf Hcur Hm; [lia|].
  destruct cur as [|th0 cur0] eqn:Ecur.
  { exists m. cbn [vm_loop]. repeat split; auto. intros (th & n & c & o & [] & _). }
  rewrite <- Ecur in *. clear th0 cur0 Ecur.
  destruct cur as [|th0 cur0] eqn:Ecur; [exists m; cbn [vm_loop]; repeat split; auto;
    intros (th & n & c & o & [] & _)|].
  rewrite <- Ecur in *.
  rewrite loop_unfold; [|exact Hi|rewrite Ecur; discriminate]. clear th0 cur0 Ecur.
  destruct (step_spec cur i ([],[]) m Hi Hcur seen_ok_nil) as (next & m1 & E & Q1 & Q2 & Q3); auto.
  { intros th []. } { apply closed_nil. }
  rewrite E. cbn [bind].
  assert (Hkeep : (exists y, m = Some y) -> exists y, m1 = Some y).
  { intros Hy. destruct Q3 as [(-> & _)|R]; auto. }
  destruct (nth_error input i) as [a|] eqn:Ea.
  - assert (Hlt : i < n_in) by (apply nth_error_Some; congruence).
    destruct (IH (S i) (fst next) m1) as (m2 & E2 & R1 & R2 & R3); auto; [lia|].
    exists m2. split; [exact E2|]. split; [exact R1|]. split; [auto|].
    intros (th & n & c & o & Hth & Hrun).
    destruct Q3 as [(-> & Hcl & _ & Hcons & Hnm)|R]; [|auto].
    apply R3.
    destruct (Hcur th Hth) as [(_ & x & Hx & Hsx) _].
    inversion Hrun; subst.
    + exfalso. eapply (Hnm th). { exact Hth. } { eassumption. }
    + rewrite H in Hx; inversion Hx; subst x0.
      destruct (succs_some _ _ _ _ (0,0) _ H0) as (l' & Hl'). congruence.
    + rewrite H in Hx; inversion Hx; subst x0.
      destruct (Run_thread (S i) next Hcl _ _ _ _ H1) as (k & q & c' & o' & Hq & Hk & _).
      { eapply Hcons; eassumption. }
      apply in_map_iff in Hq. destruct Hq as (th' & <- & Hth').
      exists th', k, c', o'. auto.
  - exists m1. split; [reflexivity|]. split; [exact Q2|]. split; [exact Hkeep|].
    intros (th & n & c & o & Hth & Hrun).
    destruct Q3 as [(-> & Hcl & _ & Hcons & Hnm)|R]; [|auto].
    exfalso.
    destruct (Hcur th Hth) as [(_ & x & Hx & Hsx) _].
    inversion Hrun; subst.
    + eapply (Hnm th). { exact Hth. } { eassumption. }
    + rewrite H in Hx; inversion Hx; subst x0.
      destruct (succs_some _ _ _ _ (0,0) _ H0) as (l' & Hl'). congruence.
    + unfold consumes in H0. rewrite Ea in H0. destruct x0; cbn in H0; discriminate.
Qed.

(** The initial thread list. *)
Lemma init_spec :
  exists tl, addt (at_fuel prog) ([], []) 0 (0, (0,0)) = Ok tl /\ add_post 0 ([],[]) tl [(0,(0,0))].
Proof.
  apply addt_total; [lia|apply seen_ok_nil|]. cbn [fst]. apply (proj1 Hwf).
Qed.

Theorem vm_spec :
  exists m, (do tl <- add_thread env at_start prog (at_fuel prog) ([], []) 0 (0, 0) 0 (blen input);
             loop (S (S n_in)) input 0 0 (fst tl) None) = Ok m /\
    match m with
    | None => forall n o, ~ Run n 0 0 (0,0) o
    | Some (bc, len, t) => exists c n, bc = bcap c /\ Run n 0 0 (0,0) (c, len, t)
    end.
Proof.
  destruct init_spec as (tl & E & (P1 & P2 & P3 & (new & Pn & P4) & P5)).
  unfold addt in E. cbn [fst snd] in E.
  change (bcap (0,0)) with (0,0) in E. change (boff input 0) with 0 in E.
  rewrite E. cbn [bind].
  destruct (loop_spec (S (S n_in)) 0 (fst tl) None) as (m & Em & Q1 & _ & Q3).
  { lia. } { lia. }
  { rewrite Pn. cbn [fst app]. intros th Hth.
    destruct (P4 th Hth) as (S1 & t & c' & [<-|[]] & S3 & S4 & S5).
    split; [split; [apply P1; exact S1|exact S5]|].
    exists c'. split; [exact S3|]. intros k o Ho.
    eapply (Run_EpsStar _ _ _ o k) in S4; [|exact Ho]. exact S4. }
  { exact I. }
  change (boff input 0) with 0 in Em.
  exists m. split; [exact Em|].
  destruct m as [[[bc len] t]|]; [exact Q1|].
  intros n o Hrun.
  destruct (Run_thread 0 tl (P5 [] (closed_nil 0 [])) _ _ _ _ Hrun) as (k & q & c' & o' & Hq & Hk & _).
  { apply (P3 (0,(0,0))). left; reflexivity. }
  apply in_map_iff in Hq. destruct Hq as (th' & <- & Hth').
  destruct Q3 as (y & Hy); [|discriminate].
  exists th', k, c', o'. auto.
Qed.

End VMProofs.
