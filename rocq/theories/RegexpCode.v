(** The byte code produced by [emit] has the expected shape. *)
From Verif Require Import Base RegexpModel RegexpSpec.

Section Seg.
Variable prog : list instr.
Variable K : list (list char).

Definition at_ (pc : nat) (i : instr) : Prop := nth_error prog pc = Some i.

Fixpoint rep_seg (n : nat) (S_ : nat -> nat -> Prop) (p q : nat) : Prop :=
  match n with
  | 0 => p = q
  | S n' => exists m, S_ p m /\ rep_seg n' S_ m q
  end.

Fixpoint str_seg (is : list instr) (p q : nat) : Prop :=
  match is with
  | [] => p = q
  | x :: r => at_ p x /\ str_seg r (S p) q
  end.

Definition star_seg (S_ : nat -> nat -> Prop) (p q : nat) : Prop :=
  exists m, at_ p (ISplit (S p) q) /\ S_ (S p) m /\ at_ m (IJump p) /\ q = S m.

Fixpoint seg (r : regexp) (p q : nat) : Prop :=
  match r with
  | RLiteral c => at_ p (IChar c) /\ q = S p
  | RConcat a b => exists m, seg a p m /\ seg b m q
  | REither a b => exists m, at_ p (ISplit (S p) (S m)) /\ seg a (S p) m /\
                             at_ m (IJump q) /\ seg b (S m) q
  | ROptional a => at_ p (ISplit (S p) q) /\ seg a (S p) q
  | RZeroOrMore a => star_seg (seg a) p q
  | ROneOrMore a => exists m, seg a p m /\ at_ m (ISplit p q) /\ q = S m
  | RAny => at_ p IAny /\ q = S p
  | RClass cs => exists k, at_ p (IClass k) /\ nth_error K k = Some cs /\ q = S p
  | RNotClass cs => exists k, at_ p (INotClass k) /\ nth_error K k = Some cs /\ q = S p
  | RRepeatExactly n a => rep_seg n (seg a) p q
  | RRepeatAtLeast n a => exists m, rep_seg n (seg a) p m /\ star_seg (seg a) m q
  | RRepeatAtLeastAtMost n m a =>
      exists h, rep_seg n (seg a) p h /\ star_seg (rep_seg (m - n) (seg a)) h q
  | RCapture a => exists m, at_ p ICapStart /\ seg a (S p) m /\ at_ m ICapEnd /\ q = S m
  | RString s => str_seg (map IChar s) p q
  | RNotString s => str_seg (map INotChar s) p q
  | RCIString s => str_seg (map ICIChar s) p q
  | RVarEq v x => at_ p (IVarEq v x) /\ q = S p
  | RNotVarEq v x => at_ p (INotVarEq v x) /\ q = S p
  | RGroup a => seg a p q
  | REmpty => p = q
  | REndAnchor => at_ p IAssertEnd /\ q = S p
  | RNotEndAnchor => at_ p IAssertMore /\ q = S p
  | RStartAnchor => at_ p IAssertStart /\ q = S p
  | RNotStartAnchor => at_ p IAssertNotStart /\ q = S p
  | RNever => at_ p IFail /\ q = S p
  end.
End Seg.

(** [upd] *)
Lemma upd_length {A} (i : nat) (x : A) l : length (upd i x l) = length l.
Proof. revert i; induction l as [|y l IH]; intros [|i]; simpl; auto. Qed.

Lemma upd_app_r {A} (a b : list A) (x : A) i :
  upd (length a + i) x (a ++ b) = a ++ upd i x b.
Proof. induction a as [|y a IH]; simpl; congruence. Qed.

Lemma upd_app_l {A} (a b : list A) (x : A) i :
  i < length a -> upd i x (a ++ b) = upd i x a ++ b.
Proof.
  revert i; induction a as [|y a IH]; intros i Hi; simpl in *; [lia|].
  destruct i; simpl; [reflexivity|]. rewrite IH by lia. reflexivity.
Qed.

(** Monotonicity of [seg] in the program and class table outside patched cells:
    we express it through a relation saying that [prog'] keeps all cells of the
    segment. *)
Definition keeps (prog prog' : list instr) (p q : nat) : Prop :=
  forall i, p <= i -> i < q -> nth_error prog' i = nth_error prog i.

Definition ext (K K' : list (list char)) : Prop :=
  forall k cs, nth_error K k = Some cs -> nth_error K' k = Some cs.

Section Mono.
Variables prog prog' : list instr.
Variables K K' : list (list char).

Lemma str_seg_le is p q : str_seg prog is p q -> q = p + length is.
Proof.
  revert p; induction is as [|x is IH]; simpl; intros p H.
  - lia.
  - destruct H as [_ H]. apply IH in H. lia.
Qed.

Lemma rep_seg_le n (S_ : nat -> nat -> Prop) p q :
  (forall p q, S_ p q -> p <= q) -> rep_seg n S_ p q -> p <= q.
Proof.
  intros HS; revert p; induction n as [|n IH]; simpl; intros p H; [lia|].
  destruct H as (m & H1 & H2). apply HS in H1. apply IH in H2. lia.
Qed.

Lemma seg_le r : forall p q, seg prog K r p q -> p <= q.
Proof.
  induction r; simpl; intros p q H;
    repeat match goal with
           | H : exists _, _ |- _ => destruct H as (? & H)
           | H : _ /\ _ |- _ => destruct H
           end; try lia;
    try (apply str_seg_le in H; lia);
    try solve [apply IHr in H; lia];
    repeat match goal with
    | H : seg _ _ _ _ _ |- _ => first [apply IHr in H | apply IHr1 in H | apply IHr2 in H]
    | H : rep_seg _ _ _ _ |- _ => apply (rep_seg_le _ _ _ _ IHr) in H
    | H : star_seg _ _ _ _ |- _ => destruct H as (? & ? & H & ? & ?)
    end; try lia.
Qed.

Lemma str_seg_mono is p q :
  keeps prog prog' p q -> str_seg prog is p q -> str_seg prog' is p q.
Proof.
  revert p; induction is as [|x is IH]; simpl; intros p Hk H; [exact H|].
  destruct H as [H1 H2].
  pose proof (str_seg_le _ _ _ H2) as Hl. split.
  - unfold at_ in *. rewrite Hk by lia. exact H1.
  - apply IH; [|exact H2]. intros i Hi1 Hi2. apply Hk; lia.
Qed.

Lemma rep_seg_mono n (S1 S2 : nat -> nat -> Prop) p q :
  (forall p q, S1 p q -> p <= q) ->
  (forall p' q', S1 p' q' -> p <= p' -> q' <= q -> S2 p' q') ->
  rep_seg n S1 p q -> rep_seg n S2 p q.
Proof.
  intros Hle. revert p; induction n as [|n IH]; simpl; intros p HS H; [exact H|].
  destruct H as (m & H1 & H2).
  pose proof (Hle _ _ H1). pose proof (rep_seg_le _ _ _ _ Hle H2).
  exists m. split; [apply HS; auto|].
  apply IH; [|exact H2]. intros p' q' Hs Hp Hq. apply HS; auto. lia.
Qed.

Lemma star_seg_mono (S1 S2 : nat -> nat -> Prop) p q :
  (forall p q, S1 p q -> p <= q) ->
  keeps prog prog' p q ->
  (forall p' q', S1 p' q' -> p <= p' -> q' <= q -> S2 p' q') ->
  star_seg prog S1 p q -> star_seg prog' S2 p q.
Proof.
  intros Hle Hk HS (m & H1 & H2 & H3 & ->).
  pose proof (Hle _ _ H2).
  exists m. unfold at_ in *. rewrite !Hk by lia. repeat split; auto.
Qed.

Lemma seg_mono r : forall p q, ext K K' -> keeps prog prog' p q ->
  seg prog K r p q -> seg prog' K' r p q.
Proof.
  assert (Hs : forall p q p' q', p <= p' -> q' <= q -> keeps prog prog' p q ->
                keeps prog prog' p' q').
  { intros p q p' q' Hp Hq Hk i Hi1 Hi2; apply Hk; lia. }
  induction r; simpl; intros p q He Hk H;
    try (destruct H as [H ->]; split; [|reflexivity];
         unfold at_ in *; rewrite Hk by lia; exact H);
    try (eapply str_seg_mono; eassumption).
  - destruct H as (m & H1 & H2).
    pose proof (seg_le _ _ _ H1). pose proof (seg_le _ _ _ H2).
    exists m. split; [apply IHr1|apply IHr2]; auto; (eapply (Hs p); [| |exact Hk]; lia).
  - destruct H as (m & H1 & H2 & H3 & H4).
    pose proof (seg_le _ _ _ H2). pose proof (seg_le _ _ _ H4).
    exists m. unfold at_ in *. rewrite !Hk by lia. repeat split; auto;
      [apply IHr1|apply IHr2]; auto; (eapply (Hs p); [| |exact Hk]; lia).
  - destruct H as (H1 & H2).
    pose proof (seg_le _ _ _ H2).
    unfold at_ in *. rewrite !Hk by lia. split; auto.
    apply IHr; auto; (eapply (Hs p); [| |exact Hk]; lia).
  - eapply star_seg_mono; try eassumption. { apply seg_le. }
    intros p' q' Hx Hp Hq. apply IHr; auto. (eapply (Hs p); [| |exact Hk]; lia).
  - destruct H as (m & H1 & H2 & ->).
    pose proof (seg_le _ _ _ H1).
    exists m. unfold at_ in *. rewrite !Hk by lia. repeat split; auto.
    apply IHr; auto; (eapply (Hs p); [| |exact Hk]; lia).
  - destruct H as (k & H1 & H2 & ->). exists k. unfold at_ in *. rewrite Hk by lia. auto.
  - destruct H as (k & H1 & H2 & ->). exists k. unfold at_ in *. rewrite Hk by lia. auto.
  - eapply rep_seg_mono; try eassumption. { apply seg_le. }
    intros p' q' Hx Hp Hq. apply IHr; auto. (eapply (Hs p); [| |exact Hk]; lia).
  - destruct H as (m & H1 & H2).
    assert (p <= m) by (eapply rep_seg_le; [|eassumption]; apply seg_le).
    assert (m <= q) by (destruct H2 as (m' & _ & H2 & _ & ->); apply seg_le in H2; lia).
    exists m. split.
    + eapply rep_seg_mono; try eassumption. { apply seg_le. }
      intros p' q' Hx Hp Hq. apply IHr; auto. (eapply (Hs p); [| |exact Hk]; lia).
    + eapply star_seg_mono; try eassumption. { apply seg_le. }
      { (eapply (Hs p); [| |exact Hk]; lia). }
      intros p' q' Hx Hp Hq. apply IHr; auto. (eapply (Hs p); [| |exact Hk]; lia).
  - destruct H as (h & H1 & H2).
    assert (p <= h) by (eapply rep_seg_le; [|eassumption]; apply seg_le).
    assert (Hr : forall p q, rep_seg (m - n) (seg prog K r) p q -> p <= q).
    { intros; eapply rep_seg_le; [|eassumption]; apply seg_le. }
    assert (h <= q) by (destruct H2 as (m' & _ & H2 & _ & ->); apply Hr in H2; lia).
    exists h. split.
    + refine (rep_seg_mono _ _ _ _ _ (seg_le _) _ H1).
      intros p' q' Hx Hp Hq. apply IHr; auto. (eapply (Hs p); [| |exact Hk]; lia).
    + refine (star_seg_mono _ _ _ _ Hr _ _ H2).
      { (eapply (Hs p); [| |exact Hk]; lia). }
      intros p' q' Hx Hp Hq.
      refine (rep_seg_mono _ _ _ _ _ (seg_le _) _ Hx).
      intros p'' q'' Hx' Hp' Hq'. apply IHr; auto. (eapply (Hs p); [| |exact Hk]; lia).
  - destruct H as (m & H1 & H2 & H3 & ->).
    pose proof (seg_le _ _ _ H2).
    exists m. unfold at_ in *. rewrite !Hk by lia. repeat split; auto.
    apply IHr; auto; (eapply (Hs p); [| |exact Hk]; lia).
  - apply IHr; auto.
  - auto.
Qed.
End Mono.

(** What emitting a piece of code into [s] does: only appends, and afterwards
    the new cells satisfy [P]. *)
Definition grows (P : list instr -> list (list char) -> nat -> nat -> Prop)
                 (s s' : code) : Prop :=
  (exists x, fst s' = fst s ++ x) /\ (exists y, snd s' = snd s ++ y) /\
  P (fst s') (snd s') (here s) (here s').

Lemma ext_app K y : ext K (K ++ y).
Proof. intros k cs H. rewrite nth_error_app1; auto. apply nth_error_Some; congruence. Qed.

Lemma keeps_app (a x : list instr) p q : q <= length a -> keeps a (a ++ x) p q.
Proof. intros Hq i _ Hi. rewrite nth_error_app1 by lia. reflexivity. Qed.

Lemma at_app (a : list instr) (x : instr) (b : list instr) : at_ (a ++ x :: b) (length a) x.
Proof. unfold at_. rewrite nth_error_app2, Nat.sub_diag by lia. reflexivity. Qed.

Lemma at_app' (a : list instr) (x : instr) (b : list instr) n :
  n = length a -> at_ (a ++ x :: b) n x.
Proof. intros ->. apply at_app. Qed.

Lemma grows_weaken s s' x y r :
  grows (fun P K => seg P K r) s s' ->
  seg (fst s' ++ x) (snd s' ++ y) r (here s) (here s').
Proof.
  intros (_ & _ & H). eapply seg_mono; [apply ext_app| |exact H].
  apply keeps_app. unfold here. lia.
Qed.

Lemma repeat_emit_grows r (IH : forall s, grows (fun P K => seg P K r) s (emit r s)) :
  forall n s, grows (fun P K => rep_seg n (seg P K r)) s (repeat_emit n (emit r) s).
Proof.
  induction n as [|n IHn]; intros s; simpl.
  - repeat split; try (exists []; rewrite app_nil_r; reflexivity).
  - destruct (IHn (emit r s)) as ((x & Hx) & (y & Hy) & Hp).
    destruct (IH s) as ((x' & Hx') & (y' & Hy') & Hp').
    repeat split.
    + exists (x' ++ x). rewrite Hx, Hx', app_assoc. reflexivity.
    + exists (y' ++ y). rewrite Hy, Hy', app_assoc. reflexivity.
    + exists (here (emit r s)). split; [|exact Hp].
      rewrite Hx, Hy. apply grows_weaken, IH.
Qed.

(** The common loop tail [Split; body; Jump back; patch]. *)
Lemma star_grows (body : code -> code)
      (Q : list instr -> list (list char) -> nat -> nat -> Prop) s :
  (forall s, grows Q s (body s)) ->
  (forall P K p q, Q P K p q -> p <= q) ->
  (forall P P' K p q, keeps P P' p q -> Q P K p q -> Q P' K p q) ->
  grows (fun P K => star_seg P (Q P K)) s
    (let pos := here s in
      let s := push (ISplit (pos + 1) 0) s in
      let s := body s in
      let s := push (IJump pos) s in
      patch pos (ISplit (pos + 1) (here s)) s).
Proof.
  intros Hb Hle Hm. cbn zeta.
  destruct (Hb (push (ISplit (here s + 1) 0) s)) as ((x & Hx) & (y & Hy) & Hq).
  set (s1 := body (push (ISplit (here s + 1) 0) s)) in *.
  cbn [push fst snd] in Hx, Hy.
  assert (Hf : fst (patch (here s) (ISplit (here s + 1) (here (push (IJump (here s)) s1)))
                     (push (IJump (here s)) s1))
             = fst s ++ ISplit (S (here s)) (S (here s1)) :: x ++ [IJump (here s)]).
  { assert (Hh : here (push (IJump (here s)) s1) = S (here s1)).
    { unfold here; cbn [push fst]. rewrite app_length. simpl. lia. }
    rewrite Hh. cbn [patch push fst]. rewrite Hx, <- !app_assoc. cbn [app].
    replace (here s) with (length (fst s) + 0) at 1 by (unfold here; lia).
    rewrite upd_app_r. cbn [upd].
    replace (here s + 1) with (S (here s)) by lia.
    reflexivity. }
  assert (Hl : here s1 = S (here s) + length x).
  { unfold here. rewrite Hx, !app_length. simpl. lia. }
  assert (Hsn : snd (patch (here s) (ISplit (here s + 1) (here (push (IJump (here s)) s1)))
                     (push (IJump (here s)) s1)) = snd s1) by reflexivity.
  assert (Hhe : here (patch (here s) (ISplit (here s + 1) (here (push (IJump (here s)) s1)))
                     (push (IJump (here s)) s1)) = S (here s1)).
  { unfold here at 1. rewrite Hf, app_length; cbn [length]; rewrite app_length; cbn [length].
    rewrite Hl; unfold here; lia. }
  match goal with |- grows _ _ ?t => set (fin := t) in * end.
  repeat split.
  - rewrite Hf. eexists. reflexivity.
  - exists y. rewrite Hsn. exact Hy.
  - rewrite Hhe, Hf, Hsn. exists (here s1). repeat split.
    + apply at_app.
    + replace (S (here s)) with (here (push (ISplit (here s + 1) 0) s)) at 2.
      2:{ unfold here; cbn [push fst]; rewrite app_length; simpl; lia. }
      eapply Hm; [|exact Hq].
      intros i Hi1 Hi2. rewrite Hx.
      unfold here at 1 in Hi1. cbn [push fst] in Hi1. rewrite app_length in Hi1. simpl in Hi1.
      rewrite <- app_assoc. cbn [app].
      rewrite !nth_error_app2 by lia.
      destruct (i - length (fst s)) as [|j] eqn:Ej; [lia|]. cbn [nth_error].
      rewrite nth_error_app1; [reflexivity|]. unfold here in *. lia.
    + replace (fst s ++ ISplit (S (here s)) (S (here s1)) :: x ++ [IJump (here s)])
        with ((fst s ++ ISplit (S (here s)) (S (here s1)) :: x) ++ [IJump (here s)])
        by (rewrite <- app_assoc; reflexivity).
      unfold at_. rewrite nth_error_app2.
      2:{ rewrite app_length; simpl. rewrite Hl. unfold here. lia. }
      replace (here s1 - length (fst s ++ ISplit (S (here s)) (S (here s1)) :: x)) with 0.
      { reflexivity. }
      rewrite app_length; cbn [length]. rewrite Hl. unfold here. lia.
Qed.

Lemma grows_push s x : grows (fun P K p q => at_ P p x /\ q = S p) s (push x s).
Proof.
  repeat split.
  - exists [x]. reflexivity.
  - exists []. simpl. rewrite app_nil_r. reflexivity.
  - apply at_app.
  - unfold here; simpl. rewrite app_length; simpl. lia.
Qed.

Lemma str_seg_app : forall is a p, p = length a -> str_seg (a ++ is) is p (p + length is).
Proof.
  induction is as [|x is IH]; intros a p ->; simpl; [lia|].
  split; [apply at_app|].
  replace (a ++ x :: is) with ((a ++ [x]) ++ is) by (rewrite <- app_assoc; reflexivity).
  replace (length a + S (length is)) with (S (length a) + length is) by lia.
  apply IH. rewrite app_length; simpl; lia.
Qed.

Lemma grows_str s is : grows (fun P K => str_seg P is) s (fst s ++ is, snd s).
Proof.
  repeat split.
  - exists is. reflexivity.
  - exists []. rewrite app_nil_r. reflexivity.
  - unfold here; cbn [fst]. rewrite app_length. apply str_seg_app. reflexivity.
Qed.

Lemma keeps_refl P p q : keeps P P p q.
Proof. intros i _ _; reflexivity. Qed.

Lemma ext_refl K : ext K K.
Proof. intros k cs H; exact H. Qed.

Lemma seg_keeps r P P' K p q : keeps P P' p q -> seg P K r p q -> seg P' K r p q.
Proof. intros H1 H2. eapply seg_mono; [apply ext_refl|exact H1|exact H2]. Qed.

Lemma rep_keeps n r P P' K p q :
  keeps P P' p q -> rep_seg n (seg P K r) p q -> rep_seg n (seg P' K r) p q.
Proof.
  intros H1 H2.
  change (seg P' K (RRepeatExactly n r) p q). eapply seg_keeps; [exact H1|exact H2].
Qed.

Theorem emit_grows : forall r s, grows (fun P K => seg P K r) s (emit r s).
Proof.
  induction r as [c|r1 IHr1 r2 IHr2|r1 IHr1 r2 IHr2|r IHr|r IHr|r IHr| |cs|cs|n r IHr|n r IHr
                 |n m r IHr|r IHr|cs|cs|cs|v z|v z|r IHr| | | | | | ];
    intros s; cbn [emit seg]; try apply grows_push; try apply grows_str.
  - (* concat *)
    destruct (IHr1 s) as ((x & Hx) & (y & Hy) & Hp).
    destruct (IHr2 (emit r1 s)) as ((x' & Hx') & (y' & Hy') & Hp').
    repeat split.
    + exists (x ++ x'). rewrite Hx', Hx, app_assoc. reflexivity.
    + exists (y ++ y'). rewrite Hy', Hy, app_assoc. reflexivity.
    + exists (here (emit r1 s)). split; [|exact Hp'].
      rewrite Hx', Hy'. apply grows_weaken, IHr1.
  - (* either *)
    cbn zeta.
    set (p1 := here s).
    set (sa := push (ISplit (p1 + 1) 0) s).
    pose proof (IHr1 sa) as Ha.
    set (sb := emit r1 sa) in *.
    set (p2 := here sb).
    destruct Ha as ((x & Hx) & (y & Hy) & Hp).
    set (sc := patch p1 (ISplit (p1 + 1) (p2 + 1)) (push (IJump 0) sb)).
    assert (Hc : sc = (fst s ++ ISplit (S p1) (S p2) :: x ++ [IJump 0], snd sb)).
    { unfold sc. unfold patch, push. cbn [fst snd]. rewrite Hx. unfold sa. cbn [push fst].
      rewrite <- !app_assoc. cbn [app].
      replace p1 with (length (fst s) + 0) at 1 by (unfold p1, here; lia).
      rewrite upd_app_r. cbn [upd]. rewrite !Nat.add_1_r. reflexivity. }
    destruct (IHr2 sc) as ((x' & Hx') & (y' & Hy') & Hp').
    set (sd := emit r2 sc) in *.
    assert (Hlb : p2 = S p1 + length x).
    { unfold p2, p1, here. rewrite Hx. unfold sa; cbn [push fst]. rewrite !app_length; simpl. lia. }
    assert (Hlc : here sc = S p2).
    { rewrite Hc. unfold here; cbn [fst]. rewrite app_length; cbn [length]. rewrite app_length; cbn [length].
      rewrite Hlb. unfold p1, here. lia. }
    assert (Hd : fst (patch p2 (IJump (here sd)) sd)
                 = fst s ++ ISplit (S p1) (S p2) :: x ++ IJump (here sd) :: x').
    { cbn [patch fst]. rewrite Hx', Hc. cbn [fst].
      replace ((fst s ++ ISplit (S p1) (S p2) :: x ++ [IJump 0]) ++ x')
        with ((fst s ++ ISplit (S p1) (S p2) :: x) ++ (IJump 0 :: x'))
        by (rewrite <- !app_assoc; cbn [app]; rewrite <- app_assoc; reflexivity).
      replace p2 with (length (fst s ++ ISplit (S p1) (S p2) :: x) + 0) at 1.
      2:{ rewrite app_length; cbn [length]. rewrite Hlb. unfold p1, here. lia. }
      rewrite upd_app_r. cbn [upd]. rewrite <- !app_assoc. reflexivity. }
    assert (Hhd : here (patch p2 (IJump (here sd)) sd) = here sd).
    { unfold here at 1; cbn [patch fst]. rewrite upd_length. reflexivity. }
    assert (Hls : here sd = S p2 + length x').
    { unfold here at 1. rewrite Hx', app_length. fold (here sc). rewrite Hlc. lia. }
    repeat split.
    + rewrite Hd. eexists. reflexivity.
    + cbn [patch snd]. rewrite Hy', Hc. cbn [snd]. rewrite Hy. unfold sa. cbn [push snd].
      exists (y ++ y'). rewrite app_assoc. reflexivity.
    + rewrite Hhd, Hd. cbn [patch snd]. exists p2. repeat split.
      * apply at_app.
      * assert (Hsa : here sa = S p1).
        { unfold sa, here; cbn [push fst]; rewrite app_length; simpl; unfold p1, here; lia. }
        rewrite Hsa in Hp. eapply seg_mono; [| |exact Hp].
        -- rewrite Hy', Hc. cbn [snd]. apply ext_app.
        -- intros i Hi1 Hi2. rewrite Hx. unfold sa in *. cbn [push fst] in *.
           unfold p1, here in Hi1.
           rewrite <- app_assoc. cbn [app]. rewrite !nth_error_app2 by lia.
           destruct (i - length (fst s)) as [|j] eqn:Ej; [lia|]. cbn [nth_error].
           rewrite nth_error_app1; [reflexivity|]. fold p2 in Hi2. unfold p1, here in *. lia.
      * replace (fst s ++ ISplit (S p1) (S p2) :: x ++ IJump (here sd) :: x')
          with ((fst s ++ ISplit (S p1) (S p2) :: x) ++ IJump (here sd) :: x')
          by (rewrite <- app_assoc; reflexivity).
        apply at_app'. rewrite app_length; cbn [length]. rewrite Hlb. unfold p1, here. lia.
      * rewrite Hlc in Hp'. eapply seg_keeps; [|exact Hp'].
        intros i Hi1 Hi2. rewrite Hx', Hc. cbn [fst].
        replace ((fst s ++ ISplit (S p1) (S p2) :: x ++ [IJump 0]) ++ x')
          with ((fst s ++ ISplit (S p1) (S p2) :: x) ++ (IJump 0 :: x'))
          by (rewrite <- !app_assoc; cbn [app]; rewrite <- app_assoc; reflexivity).
        replace (fst s ++ ISplit (S p1) (S p2) :: x ++ IJump (here sd) :: x')
          with ((fst s ++ ISplit (S p1) (S p2) :: x) ++ IJump (here sd) :: x')
          by (rewrite <- app_assoc; reflexivity).
        assert (Hlen : length (fst s ++ ISplit (S p1) (S p2) :: x) = p2).
        { rewrite app_length; cbn [length]. rewrite Hlb. unfold p1, here. lia. }
        rewrite !nth_error_app2 by lia. rewrite Hlen.
        destruct (i - p2) as [|j] eqn:Ej; [lia|]. reflexivity.
  - (* optional *)
    cbn zeta.
    set (p1 := here s).
    set (sa := push (ISplit (p1 + 1) 0) s).
    destruct (IHr sa) as ((x & Hx) & (y & Hy) & Hp).
    set (sb := emit r sa) in *.
    assert (Hb : fst (patch p1 (ISplit (p1 + 1) (here sb)) sb)
                 = fst s ++ ISplit (S p1) (here sb) :: x).
    { cbn [patch fst]. rewrite Hx. unfold sa; cbn [push fst]. rewrite <- app_assoc. cbn [app].
      replace p1 with (length (fst s) + 0) at 1 by (unfold p1, here; lia).
      rewrite upd_app_r. cbn [upd]. rewrite Nat.add_1_r. reflexivity. }
    assert (Hhb : here (patch p1 (ISplit (p1 + 1) (here sb)) sb) = here sb).
    { unfold here at 1; cbn [patch fst]. rewrite upd_length. reflexivity. }
    repeat split.
    + rewrite Hb. eexists. reflexivity.
    + cbn [patch snd]. exists y. exact Hy.
    + rewrite Hhb, Hb. apply at_app.
    + rewrite Hhb, Hb. cbn [patch snd].
      assert (Hsa : here sa = S p1).
      { unfold sa, here; cbn [push fst]; rewrite app_length; simpl; unfold p1, here; lia. }
      rewrite Hsa in Hp. eapply seg_keeps; [|exact Hp].
      intros i Hi1 Hi2. rewrite Hx. unfold sa in *; cbn [push fst] in *.
      unfold p1, here in Hi1.
      rewrite <- app_assoc; cbn [app]. rewrite !nth_error_app2 by lia.
      destruct (i - length (fst s)) as [|j] eqn:Ej; [lia|]. reflexivity.
  - (* zero or more *)
    apply (star_grows (emit r) (fun P K => seg P K r)).
    + exact IHr.
    + intros; eapply seg_le; eassumption.
    + intros; eapply seg_keeps; eassumption.
  - (* one or more *)
    cbn zeta.
    destruct (IHr s) as ((x & Hx) & (y & Hy) & Hp).
    destruct (grows_push (emit r s) (ISplit (here s) (here (emit r s) + 1))) as (_ & _ & Hq).
    repeat split.
    + exists (x ++ [ISplit (here s) (here (emit r s) + 1)]). cbn [push fst]. rewrite Hx, app_assoc. reflexivity.
    + exists y. exact Hy.
    + exists (here (emit r s)). destruct Hq as [Hq1 Hq2]. repeat split.
      * cbn [push fst snd]. eapply seg_keeps; [|exact Hp]. apply keeps_app. unfold here; lia.
      * rewrite Hq2. rewrite Nat.add_1_r in *. exact Hq1.
      * exact Hq2.
  - (* class *)
    cbn zeta. repeat split.
    + cbn [push fst]. eexists. reflexivity.
    + cbn [push snd]. eexists. reflexivity.
    + cbn [push fst snd]. exists (length (snd s ++ [cs]) - 1). repeat split.
      * apply at_app.
      * rewrite app_length; cbn [length]. rewrite nth_error_app2 by lia.
        replace (length (snd s) + 1 - 1 - length (snd s)) with 0 by lia. reflexivity.
      * unfold here; cbn [push fst]. rewrite app_length; simpl; lia.
  - cbn zeta. repeat split.
    + cbn [push fst]. eexists. reflexivity.
    + cbn [push snd]. eexists. reflexivity.
    + cbn [push fst snd]. exists (length (snd s ++ [cs]) - 1). repeat split.
      * apply at_app.
      * rewrite app_length; cbn [length]. rewrite nth_error_app2 by lia.
        replace (length (snd s) + 1 - 1 - length (snd s)) with 0 by lia. reflexivity.
      * unfold here; cbn [push fst]. rewrite app_length; simpl; lia.
  - (* exactly *)
    apply repeat_emit_grows, IHr.
  - (* at least *)
    pose proof (repeat_emit_grows r IHr n s) as H1.
    set (s1 := repeat_emit n (emit r) s) in *.
    pose proof (star_grows (emit r) (fun P K => seg P K r) s1 IHr) as H2.
    cbn zeta in H2 |- *.
    match type of H2 with _ -> _ -> grows _ _ ?t => set (s2 := t) in * end.
    destruct H2 as ((x' & Hx') & (y' & Hy') & Hp').
    { intros; eapply seg_le; eassumption. }
    { intros; eapply seg_keeps; eassumption. }
    destruct H1 as ((x & Hx) & (y & Hy) & Hp).
    repeat split.
    + exists (x ++ x'). rewrite Hx', Hx, app_assoc. reflexivity.
    + exists (y ++ y'). rewrite Hy', Hy, app_assoc. reflexivity.
    + exists (here s1). split; [|exact Hp'].
      change (seg (fst s2) (snd s2) (RRepeatExactly n r) (here s) (here s1)).
      eapply seg_mono; [rewrite Hy'; apply ext_app| |exact Hp].
      rewrite Hx'. apply keeps_app. unfold here; lia.
  - (* range *)
    pose proof (repeat_emit_grows r IHr n s) as H1.
    set (s1 := repeat_emit n (emit r) s) in *.
    pose proof (star_grows (repeat_emit (m - n) (emit r))
                  (fun P K => rep_seg (m - n) (seg P K r)) s1
                  (repeat_emit_grows r IHr (m - n))) as H2.
    cbn zeta in H2 |- *.
    match type of H2 with _ -> _ -> grows _ _ ?t => set (s2 := t) in * end.
    destruct H2 as ((x' & Hx') & (y' & Hy') & Hp').
    { intros; eapply rep_seg_le; [|eassumption]. intros; eapply seg_le; eassumption. }
    { intros; eapply rep_keeps; eassumption. }
    destruct H1 as ((x & Hx) & (y & Hy) & Hp).
    repeat split.
    + exists (x ++ x'). rewrite Hx', Hx, app_assoc. reflexivity.
    + exists (y ++ y'). rewrite Hy', Hy, app_assoc. reflexivity.
    + exists (here s1). split; [|exact Hp'].
      change (seg (fst s2) (snd s2) (RRepeatExactly n r) (here s) (here s1)).
      eapply seg_mono; [rewrite Hy'; apply ext_app| |exact Hp].
      rewrite Hx'. apply keeps_app. unfold here; lia.
  - (* capture *)
    set (sa := push ICapStart s).
    destruct (IHr sa) as ((x & Hx) & (y & Hy) & Hp).
    set (sb := emit r sa) in *.
    unfold sa in Hx, Hy. cbn [push fst snd] in Hx, Hy.
    assert (Hsa : here sa = S (here s)).
    { unfold sa, here; cbn [push fst]; rewrite app_length; simpl; lia. }
    repeat split.
    + cbn [push fst]. rewrite Hx. exists (ICapStart :: x ++ [ICapEnd]). rewrite <- !app_assoc. reflexivity.
    + exists y. exact Hy.
    + exists (here sb). destruct (grows_push sb ICapEnd) as (_ & _ & Hq1 & Hq2). repeat split; auto.
      * cbn [push fst]. rewrite Hx, <- !app_assoc. cbn [app]. apply at_app.
      * rewrite <- Hsa. cbn [push fst snd]. eapply seg_keeps; [|exact Hp]. apply keeps_app. unfold here; lia.
  - apply IHr.
  - repeat split; try (exists []; rewrite app_nil_r; reflexivity).
Qed.

(** The whole compiled program: the segment of [r] followed by [Match 0]. *)
Theorem compile_seg r :
  exists q, seg (fst (compile r)) (snd (compile r)) r 0 q /\
            nth_error (fst (compile r)) q = Some (IMatch 0) /\
            length (fst (compile r)) = S q.
Proof.
  destruct (emit_grows r ([], [])) as (_ & _ & Hp).
  exists (here (emit r ([], []))). unfold compile. cbn [push fst snd]. repeat split.
  - eapply seg_keeps; [|exact Hp]. apply keeps_app. unfold here; lia.
  - rewrite nth_error_app2 by (unfold here; lia). unfold here. rewrite Nat.sub_diag. reflexivity.
  - rewrite app_length. unfold here; simpl; lia.
Qed.
