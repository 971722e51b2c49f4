(** Specification and proofs of the rule trie (TrieModel.v). *)
From Coq Require Import Permutation.
From Verif Require Import Base BaseProofs RuleModel TranslationModel TranslationProofs
  TableModel TableProofs TrieModel.

(** ** Sorted sets *)
Lemma sort_insert_In c l x : In x (sort_insert c l) <-> x = c \/ In x l.
Proof.
  induction l as [|y r IH]; simpl; [intuition congruence|].
  destruct (N.ltb c y); [simpl; intuition congruence|].
  destruct (N.eqb_spec c y); simpl; [subst; intuition congruence|]. rewrite IH. intuition.
Qed.
Lemma sort_dedup_In l x : In x (sort_dedup l) <-> In x l.
Proof. induction l as [|y r IH]; simpl; [tauto|]. rewrite sort_insert_In, IH. intuition congruence. Qed.
Inductive ssorted : list char -> Prop :=
| ss_nil : ssorted []
| ss_cons x l : (forall y, In y l -> (x < y)%N) -> ssorted l -> ssorted (x :: l).
Lemma sort_insert_sorted c l : ssorted l -> ssorted (sort_insert c l).
Proof.
  induction 1 as [|x l Hx Hs IH]; simpl; [constructor; [intros ? []|constructor]|].
  destruct (N.ltb_spec c x).
  - constructor; [|constructor; auto]. intros y [<-|Hy]; auto. specialize (Hx y Hy). lia.
  - destruct (N.eqb_spec c x); [constructor; auto|].
    constructor; auto. intros y Hy. apply sort_insert_In in Hy. destruct Hy as [->|Hy]; auto. lia.
Qed.
Lemma sort_dedup_sorted l : ssorted (sort_dedup l).
Proof. induction l as [|y r IH]; simpl; [constructor|apply sort_insert_sorted; auto]. Qed.
Lemma ssorted_ext a b : ssorted a -> ssorted b -> (forall x, In x a <-> In x b) -> a = b.
Proof.
  intros Ha; revert b; induction Ha as [|x l Hx Hs IH]; intros b Hb H.
  - destruct b as [|y b]; auto. exfalso. apply (H y). simpl; auto.
  - destruct Hb as [|y b Hy Hb].
    + exfalso. apply (H x). simpl; auto.
    + assert (x = y).
      { destruct (proj1 (H x) (or_introl eq_refl)) as [E|Hi]; auto.
        destruct (proj2 (H y) (or_introl eq_refl)) as [E|Hj]; auto.
        specialize (Hx y Hj). specialize (Hy x Hi). lia. }
      subst y. f_equal. apply IH; auto. intros z. split; intros Hz.
      * destruct (proj1 (H z) (or_intror Hz)) as [E|]; auto. subst z. specialize (Hx x Hz). lia.
      * destruct (proj2 (H z) (or_intror Hz)) as [E|]; auto. subst z. specialize (Hy x Hz). lia.
Qed.

(** A neighbour (or the end of the text) satisfies a list of classes: it is a character of
    one of them, or there is none and [Space] is listed. *)
Definition neighbour_in (ctx : classes) (ks : list class) (c : option char) : Prop :=
  match c with
  | Some c => exists k, In k ks /\ cls_has ctx k c = true
  | None => In CSpace ks
  end.
Lemma rc_matches_spec ctx ks c : rc_matches (rc_resolve ctx ks) c = true <-> neighbour_in ctx ks c.
Proof.
  destruct c as [c|]; simpl.
  - rewrite mem_In, sort_dedup_In, in_flat_map. split; intros (k & Hk & H); exists k; split; auto.
    + apply cls_has_In. destruct (cls_get ctx k) as [l|] eqn:E; [|destruct H].
      apply (cls_get_In _ _ _ E). auto.
    + unfold cls_has in H. destruct (cls_get ctx k); [|discriminate]. apply mem_In. auto.
  - rewrite existsb_exists. split.
    + intros (k & Hk & E). apply class_eqb_eq in E. subst; auto.
    + intros H. exists CSpace. split; auto.
Qed.

(** ** Edges *)
Lemma rc_eqb_eq a b : rc_eqb a b = true <-> a = b.
Proof.
  unfold rc_eqb. fold str_eqb. rewrite andb_true_iff, str_eqb_eq, Bool.eqb_true_iff.
  destruct a, b; simpl. split; [intros [-> ->]; auto|intros H; inversion H; auto].
Qed.
Lemma edge_eqb_eq a b : edge_eqb a b = true <-> a = b.
Proof.
  destruct a, b; simpl; try (split; [discriminate|intros H; discriminate]).
  - rewrite N.eqb_eq. split; [intros ->; auto|intros H; inversion H; auto].
  - rewrite rc_eqb_eq. split; [intros ->; auto|intros H; inversion H; auto].
  - rewrite rc_eqb_eq. split; [intros ->; auto|intros H; inversion H; auto].
Qed.
Lemma edge_eqb_refl a : edge_eqb a a = true.
Proof. apply edge_eqb_eq. auto. Qed.
Lemma edge_eq_dec (a b : edge) : {a = b} + {a <> b}.
Proof.
  destruct (edge_eqb a b) eqn:E; [left; apply edge_eqb_eq; auto|right].
  intros H. apply edge_eqb_eq in H. congruence.
Qed.
Lemma path_eq_dec (a b : list edge) : {a = b} + {a <> b}.
Proof. exact (list_eq_dec edge_eq_dec a b). Qed.

(** ** Induction on nodes *)
Fixpoint node_ind' (P : node -> Prop)
  (H : forall t ts, Forall (fun q => P (snd q)) ts -> P (Node t ts)) (n : node) : P n :=
  match n with
  | Node t ts => H t ts ((fix go (l : list (edge * node)) : Forall (fun q => P (snd q)) l :=
                            match l with
                            | [] => Forall_nil _
                            | p :: r => Forall_cons p (node_ind' P H (snd p)) (go r)
                            end) ts)
  end.

(** A node whose children have distinct edges, everywhere. *)
Inductive wf : node -> Prop :=
| wf_node t ts : NoDup (map fst ts) -> Forall (fun q => wf (snd q)) ts -> wf (Node t ts).

(** [stored n p t]: [t] is stored at the end of path [p]. *)
Inductive stored : node -> list edge -> resolved -> Prop :=
| st_here t ts : stored (Node (Some t) ts) [] t
| st_step o ts e ch p t : In (e, ch) ts -> stored ch p t -> stored (Node o ts) (e :: p) t.

Lemma nodup_child (ts : list (edge * node)) e a b :
  NoDup (map fst ts) -> In (e, a) ts -> In (e, b) ts -> a = b.
Proof.
  induction ts as [|[e' c] r IH]; simpl; [intros _ []|].
  intros H [Ea|Ha] [Eb|Hb]; inversion H; subst.
  - congruence.
  - exfalso. inversion Ea; subst. apply H2. apply (in_map fst) in Hb. auto.
  - exfalso. inversion Eb; subst. apply H2. apply (in_map fst) in Ha. auto.
  - auto.
Qed.
Lemma stored_fun n p t t' : wf n -> stored n p t -> stored n p t' -> t = t'.
Proof.
  intros W H; revert t' W. induction H as [t0 ts|o ts e ch p t0 Hi Hs IH]; intros t' W H'; inversion H'; subst; auto.
  inversion W; subst. assert (ch0 = ch) by (eapply nodup_child; eauto). subst.
  apply IH; auto. match goal with F : Forall _ ts |- _ => rewrite Forall_forall in F; apply (F (e, ch)) end. auto.
Qed.

(** ** Lookup *)
Inductive path_matches (lower : char -> list char) : list edge -> str -> option char -> Prop :=
| pm_nil input prev : path_matches lower [] input prev
| pm_char x p c rest prev :
    lower c = [x] -> path_matches lower p rest (Some c) ->
    path_matches lower (ECh x :: p) (c :: rest) prev
| pm_start rc p input prev :
    rc_matches rc prev = true -> path_matches lower p input prev ->
    path_matches lower (EStart rc :: p) input prev
| pm_end rc p input prev :
    rc_matches rc (hd_error input) = true -> path_matches lower p input prev ->
    path_matches lower (EEnd rc :: p) input prev.

Section Find.
Variable lower : char -> list char.

(** [find_from] annotated with the path of each result. *)
Fixpoint find_paths (n : node) (input : str) (prev : option char) : list (list edge * resolved) :=
  match n with
  | Node t ts =>
      map (fun t => ([], t)) (opt_list t) ++
      (match input with
       | c :: rest =>
           match single_lower lower c with
           | Some x =>
               (fix look (l : list (edge * node)) : list (list edge * resolved) :=
                  match l with
                  | [] => []
                  | (e, ch) :: r =>
                      if edge_eqb (ECh x) e
                      then map (fun q => (ECh x :: fst q, snd q)) (find_paths ch rest (Some c))
                      else look r
                  end) ts
           | None => []
           end
       | [] => []
       end) ++
      (fix go (l : list (edge * node)) : list (list edge * resolved) :=
         match l with
         | [] => []
         | (EStart rc, ch) :: r =>
             (if rc_matches rc prev
              then map (fun q => (EStart rc :: fst q, snd q)) (find_paths ch input prev) else []) ++ go r
         | (EEnd rc, ch) :: r =>
             (if rc_matches rc (hd_error input)
              then map (fun q => (EEnd rc :: fst q, snd q)) (find_paths ch input prev) else []) ++ go r
         | (ECh _, _) :: r => go r
         end) ts
  end.

Definition lookp (rest : str) (c x : char) : list (edge * node) -> list (list edge * resolved) :=
  fix look l := match l with
     | [] => []
     | (e, ch) :: r =>
         if edge_eqb (ECh x) e
         then map (fun q => (ECh x :: fst q, snd q)) (find_paths ch rest (Some c))
         else look r
     end.
Definition gop (input : str) (prev : option char) : list (edge * node) -> list (list edge * resolved) :=
  fix go l := match l with
     | [] => []
     | (EStart rc, ch) :: r =>
         (if rc_matches rc prev
          then map (fun q => (EStart rc :: fst q, snd q)) (find_paths ch input prev) else []) ++ go r
     | (EEnd rc, ch) :: r =>
         (if rc_matches rc (hd_error input)
          then map (fun q => (EEnd rc :: fst q, snd q)) (find_paths ch input prev) else []) ++ go r
     | (ECh _, _) :: r => go r
     end.
Lemma find_paths_eq t ts input prev :
  find_paths (Node t ts) input prev =
  map (fun t => ([], t)) (opt_list t) ++
  (match input with
   | c :: rest => match single_lower lower c with Some x => lookp rest c x ts | None => [] end
   | [] => []
   end) ++ gop input prev ts.
Proof. reflexivity. Qed.

Lemma find_paths_snd n : forall input prev,
  find_from lower n input prev = map snd (find_paths n input prev).
Proof.
  induction n as [t ts IH] using node_ind'. intros input prev.
  rewrite find_paths_eq. cbn [find_from]. rewrite !map_app.
  f_equal; [destruct t; reflexivity|]. f_equal.
  - destruct input as [|c rest]; [reflexivity|]. destruct (single_lower lower c) as [x|]; [|reflexivity].
    induction IH as [|[e ch] r Hch Hr IHr]; simpl in *; [reflexivity|].
    destruct (match e with ECh y => N.eqb x y | _ => false end); [|exact IHr].
    rewrite map_map. simpl. apply Hch.
  - induction IH as [|[e ch] r Hch Hr IHr]; [reflexivity|]. cbn [gop]. simpl in Hch.
    destruct e as [y|rc|rc].
    + exact IHr.
    + rewrite map_app. f_equal; [|exact IHr]. destruct (rc_matches rc prev); [|reflexivity].
      rewrite map_map. simpl. apply Hch.
    + rewrite map_app. f_equal; [|exact IHr]. destruct (rc_matches rc (hd_error input)); [|reflexivity].
      rewrite map_map. simpl. apply Hch.
Qed.

Lemma lookp_In rest c x ts p t :
  NoDup (map fst ts) ->
  (In (p, t) (lookp rest c x ts) <->
   exists ch p', p = ECh x :: p' /\ In (ECh x, ch) ts /\ In (p', t) (find_paths ch rest (Some c))).
Proof.
  induction ts as [|[e ch] r IH]; simpl; intros ND.
  - split; [intros []|intros (? & ? & _ & [] & _)].
  - inversion ND; subst.
    change (match e with ECh y => N.eqb x y | _ => false end) with (edge_eqb (ECh x) e).
    destruct (edge_eqb (ECh x) e) eqn:E.
    + apply edge_eqb_eq in E. subst e. rewrite in_map_iff. split.
      * intros ([p' t'] & Eq & H). simpl in Eq. inversion Eq; subst. exists ch, p'. auto.
      * intros (ch' & p' & -> & [Eq|Hi] & H).
        -- inversion Eq; subst. exists (p', t). auto.
        -- exfalso. apply H1. apply (in_map fst) in Hi. auto.
    + rewrite IH by auto. split.
      * intros (ch' & p' & -> & Hi & H). exists ch', p'. auto.
      * intros (ch' & p' & -> & [Eq|Hi] & H).
        -- inversion Eq; subst. rewrite edge_eqb_refl in E. discriminate.
        -- exists ch', p'. auto.
Qed.

Definition edge_check (e : edge) (input : str) (prev : option char) : bool :=
  match e with
  | ECh _ => false
  | EStart rc => rc_matches rc prev
  | EEnd rc => rc_matches rc (hd_error input)
  end.
Lemma gop_In input prev ts p t :
  In (p, t) (gop input prev ts) <->
  exists e ch p', p = e :: p' /\ In (e, ch) ts /\ edge_check e input prev = true /\
                  In (p', t) (find_paths ch input prev).
Proof.
  induction ts as [|[e ch] r IH]; cbn [gop].
  - split; [intros []|intros (? & ? & ? & _ & [] & _)].
  - assert (X : In (p, t) (if edge_check e input prev
                   then map (fun q => (e :: fst q, snd q)) (find_paths ch input prev) else []) <->
              exists p', p = e :: p' /\ edge_check e input prev = true /\ In (p', t) (find_paths ch input prev)).
    { destruct (edge_check e input prev).
      - rewrite in_map_iff. split.
        + intros ([p' t'] & Eq & H). simpl in Eq. inversion Eq; subst. eauto.
        + intros (p' & -> & _ & H). exists (p', t). auto.
      - split; [intros []|intros (? & _ & H & _); discriminate]. }
    assert (Y : (exists e0 ch0 p', p = e0 :: p' /\ In (e0, ch0) ((e, ch) :: r) /\
                   edge_check e0 input prev = true /\ In (p', t) (find_paths ch0 input prev)) <->
                (exists p', p = e :: p' /\ edge_check e input prev = true /\ In (p', t) (find_paths ch input prev)) \/
                In (p, t) (gop input prev r)).
    { rewrite IH. split.
      - intros (e0 & ch0 & p' & -> & [Eq|Hi] & H1 & H2).
        + inversion Eq; subst. left. eauto.
        + right. exists e0, ch0, p'. auto.
      - intros [(p' & -> & H1 & H2)|(e0 & ch0 & p' & -> & Hi & H1 & H2)].
        + exists e, ch, p'. simpl; auto.
        + exists e0, ch0, p'. simpl; auto. }
    rewrite Y, <- X. destruct e as [y|rc|rc]; cbn [edge_check].
    + simpl. tauto.
    + rewrite in_app_iff. reflexivity.
    + rewrite in_app_iff. reflexivity.
Qed.

Lemma find_paths_In n : forall input prev p t, wf n ->
  (In (p, t) (find_paths n input prev) <-> stored n p t /\ path_matches lower p input prev).
Proof.
  induction n as [o ts IH] using node_ind'. intros input prev p t W. inversion W; subst.
  rewrite Forall_forall in IH, H2. rewrite find_paths_eq, !in_app_iff, gop_In.
  split.
  - intros [H|[H|H]].
    + destruct o as [t0|]; [|destruct H]. destruct H as [E|[]]. inversion E; subst. split; constructor.
    + destruct input as [|c rest]; [destruct H|]. unfold single_lower in H.
      destruct (lower c) as [|x [|]] eqn:El; try destruct H.
      apply lookp_In in H; auto. destruct H as (ch & p' & -> & Hi & Hp).
      apply (IH (ECh x, ch)) in Hp; [|auto|apply (H2 (ECh x, ch)); auto]. destruct Hp as [Hs Hm].
      split; [eapply st_step; eauto|constructor; auto].
    + destruct H as (e & ch & p' & -> & Hi & Hc & Hp).
      apply (IH (e, ch)) in Hp; [|auto|apply (H2 (e, ch)); auto]. destruct Hp as [Hs Hm].
      split; [eapply st_step; eauto|]. destruct e; simpl in Hc; [discriminate|constructor; auto|constructor; auto].
  - intros [Hs Hm]. inversion Hs; subst.
    + left. simpl. auto.
    + right. assert (Wc : wf ch) by (apply (H2 (e, ch)); auto).
      inversion Hm; subst.
      * left. unfold single_lower. match goal with H : lower _ = [_] |- _ => rewrite H end.
        apply lookp_In; auto. exists ch, p0. repeat split; auto.
        match goal with H : In (ECh _, ch) ts |- _ => apply (IH _ H) end; auto.
      * right. exists (EStart rc), ch, p0. repeat split; auto.
        match goal with H : In (EStart rc, ch) ts |- _ => apply (IH _ H) end; auto.
      * right. exists (EEnd rc), ch, p0. repeat split; auto.
        match goal with H : In (EEnd rc, ch) ts |- _ => apply (IH _ H) end; auto.
Qed.

Lemma NoDup_map_cons (e : edge) (l : list (list edge * resolved)) :
  NoDup (map fst l) -> NoDup (map fst (map (fun q => (e :: fst q, snd q)) l)).
Proof.
  rewrite map_map. simpl. induction l as [|[p t] r IH]; simpl; intros H; constructor; inversion H; subst; auto.
  intros Hi. apply in_map_iff in Hi. destruct Hi as ([p' t'] & E & Hi). simpl in E. inversion E; subst.
  apply H2. apply (in_map fst) in Hi. auto.
Qed.
Lemma NoDup_app {A} (a b : list A) :
  NoDup a -> NoDup b -> (forall x, In x a -> In x b -> False) -> NoDup (a ++ b).
Proof.
  induction 1 as [|x a Hx Ha IH]; simpl; intros Hb H; auto. constructor.
  - intros Hi. apply in_app_or in Hi. destruct Hi; [auto|]. apply (H x); auto.
  - apply IH; auto. intros y Hy Hy'. apply (H y); auto.
Qed.

Lemma find_paths_NoDup n : forall input prev, wf n -> NoDup (map fst (find_paths n input prev)).
Proof.
  induction n as [o ts IH] using node_ind'. intros input prev W. inversion W; subst.
  rewrite find_paths_eq, !map_app.
  apply NoDup_app; [destruct o; simpl; repeat constructor; simpl; tauto| |].
  - apply NoDup_app.
    + destruct input as [|c rest]; [constructor|]. destruct (single_lower lower c) as [x|]; [|constructor].
      clear H1. induction ts as [|[e ch] r IHr]; simpl; [constructor|].
      inversion IH; subst. inversion H2; subst. simpl in *.
      destruct (match e with ECh y => N.eqb x y | _ => false end).
      * apply NoDup_map_cons. auto.
      * apply IHr; auto. inversion W; subst. constructor; auto.
        match goal with H : NoDup _ |- _ => inversion H; auto end.
    + clear W. induction ts as [|[e ch] r IHr]; [constructor|].
      inversion IH; subst. inversion H2; subst. inversion H1; subst. simpl in *.
      assert (G : forall b : bool, e = e -> NoDup (map fst ((if b then map (fun q => (e :: fst q, snd q)) (find_paths ch input prev) else []) ++ gop input prev r))).
      { intros b _. rewrite map_app. apply NoDup_app; auto.
        - destruct b; [apply NoDup_map_cons; auto|constructor].
        - intros x Hx Hy. destruct b; [|destruct Hx]. rewrite map_map in Hx. apply in_map_iff in Hx.
          destruct Hx as (q & <- & _). apply in_map_iff in Hy. destruct Hy as ([p t] & E & Hy).
          simpl in E. subst. apply gop_In in Hy. destruct Hy as (e0 & ch0 & p' & Eq & Hi & _).
          inversion Eq; subst. apply H7. apply (in_map fst) in Hi. auto. }
      destruct e; [apply IHr; auto|apply G; auto|apply G; auto].
    + intros p Hp Hq. apply in_map_iff in Hq. destruct Hq as ([p' t'] & E & Hq). simpl in E. subst.
      apply gop_In in Hq. destruct Hq as (e & ch & p0 & -> & _ & Hc & _).
      destruct input as [|c rest]; [destruct Hp|]. destruct (single_lower lower c) as [x|]; [|destruct Hp].
      apply in_map_iff in Hp. destruct Hp as ([p' t''] & E & Hp). simpl in E. subst.
      apply lookp_In in Hp; auto. destruct Hp as (ch' & p1 & Eq & _). inversion Eq; subst. discriminate.
  - intros p Hp Hq. destruct o as [t0|]; [|destruct Hp]. destruct Hp as [<-|[]].
    apply in_app_or in Hq. destruct Hq as [Hq|Hq].
    + destruct input as [|c rest]; [destruct Hq|]. destruct (single_lower lower c) as [x|]; [|destruct Hq].
      apply in_map_iff in Hq. destruct Hq as ([p' t''] & E & Hq). simpl in E. subst.
      apply lookp_In in Hq; auto. destruct Hq as (ch' & p1 & Eq & _). discriminate.
    + apply in_map_iff in Hq. destruct Hq as ([p' t''] & E & Hq). simpl in E. subst.
      apply gop_In in Hq. destruct Hq as (e & ch & p0 & Eq & _). discriminate.
Qed.
End Find.

(** ** Shuffling *)
Lemma shuffle_ind' (P : node -> node -> Prop)
  (H : forall t ts ts' us,
     Forall2 (fun p q => fst p = fst q /\ shuffle (snd p) (snd q) /\ P (snd p) (snd q)) ts ts' ->
     Permutation ts' us -> P (Node t ts) (Node t us)) :
  forall n n', shuffle n n' -> P n n'.
Proof.
  fix IH 3. intros n n' S. destruct S as [t ts ts' us F Pm]. apply (H t ts ts' us); auto.
  clear Pm. induction F as [|p q l l' [E S] F IHF]; constructor; auto.
Qed.

Lemma shuffle_wf n n' : shuffle n n' -> wf n -> wf n'.
Proof.
  intros S; induction S as [t ts ts' us F Pm] using shuffle_ind'. intros W. inversion W; subst.
  assert (E : map fst ts = map fst ts').
  { clear -F. induction F as [|p q l l' (E & _) F IH]; simpl; congruence. }
  constructor.
  - eapply Permutation_NoDup; [apply Permutation_map; exact Pm|]. rewrite <- E. auto.
  - eapply Permutation_Forall; [exact Pm|]. clear -F H2.
    induction F as [|p q l l' (E & _ & HP) F IH]; constructor; inversion H2; subst; auto.
Qed.
Lemma shuffle_stored n n' : shuffle n n' -> forall p t, stored n p t <-> stored n' p t.
Proof.
  intros S; induction S as [t ts ts' us F Pm] using shuffle_ind'. intros p r. split; intros H;
    inversion H as [t0 ts0 E1 E2|o ts0 e ch p0 t0 Hi Hs E1 E2]; subst.
  - constructor.
  - assert (X : exists ch', In (e, ch') ts' /\ stored ch' p0 r).
    { clear -F Hi Hs. induction F as [|a b l l' (E & _ & HP) F IH]; [destruct Hi|].
      destruct Hi as [->|Hi].
      - exists (snd b). simpl in *. split; [left; destruct b; simpl in *; congruence|]. apply HP. auto.
      - destruct (IH Hi) as (ch' & Hi' & Hs'). exists ch'. simpl; auto. }
    destruct X as (ch' & Hi' & Hs'). eapply st_step; eauto. eapply Permutation_in; eauto.
  - constructor.
  - apply (Permutation_in _ (Permutation_sym Pm)) in Hi.
    assert (X : exists ch', In (e, ch') ts /\ stored ch' p0 r).
    { clear -F Hi Hs. induction F as [|a b l l' (E & _ & HP) F IH]; [destruct Hi|].
      destruct Hi as [->|Hi].
      - exists (snd a). simpl in *. split; [left; destruct a; simpl in *; congruence|]. apply HP. auto.
      - destruct (IH Hi) as (ch' & Hi' & Hs'). exists ch'. simpl; auto. }
    destruct X as (ch' & Hi' & Hs'). eapply st_step; eauto.
Qed.
Lemma shuffle_refl n : shuffle n n.
Proof.
  induction n as [t ts IH] using node_ind'. apply (sh_node t ts ts ts); auto.
  induction IH; constructor; auto.
Qed.

(** ** Insertion *)
Definition upd_children (f : option resolved -> option resolved) (e : edge) (p : list edge)
  : list (edge * node) -> list (edge * node) :=
  fix go l := match l with
     | [] => [(e, node_update f p node_empty)]
     | (e', ch) :: r => if edge_eqb e e' then (e', node_update f p ch) :: r
                        else (e', ch) :: go r
     end.
Lemma node_update_eq f e p t ts :
  node_update f (e :: p) (Node t ts) = Node t (upd_children f e p ts).
Proof. reflexivity. Qed.

Lemma upd_children_keys f e p ts x :
  In x (map fst (upd_children f e p ts)) <-> x = e \/ In x (map fst ts).
Proof.
  induction ts as [|[e' ch] r IH]; simpl; [intuition congruence|].
  destruct (edge_eqb e e') eqn:E; simpl.
  - apply edge_eqb_eq in E. subst. intuition congruence.
  - rewrite IH. intuition congruence.
Qed.
Lemma upd_children_NoDup f e p ts : NoDup (map fst ts) -> NoDup (map fst (upd_children f e p ts)).
Proof.
  induction ts as [|[e' ch] r IH]; simpl; intros H.
  - repeat constructor. simpl; tauto.
  - inversion H; subst. destruct (edge_eqb e e') eqn:E; simpl; constructor; auto.
    intros Hi. apply upd_children_keys in Hi. destruct Hi as [->|Hi]; auto.
    rewrite edge_eqb_refl in E. discriminate.
Qed.
Lemma wf_empty : wf node_empty.
Proof. constructor; [constructor|constructor]. Qed.
Lemma node_update_wf f p : forall n, wf n -> wf (node_update f p n).
Proof.
  induction p as [|e p IH]; intros n W; destruct n as [t ts]; inversion W; subst.
  - simpl. constructor; auto.
  - rewrite node_update_eq. constructor; [apply upd_children_NoDup; auto|].
    clear W H1. induction H2 as [|[e' ch] r Hc Hr IHr]; simpl.
    + constructor; [|constructor]. simpl. apply IH. apply wf_empty.
    + destruct (edge_eqb e e'); constructor; auto. simpl. apply IH. auto.
Qed.

(** The value stored at a path, as a function. *)
Fixpoint value_at (n : node) (p : list edge) : option resolved :=
  match p with
  | [] => match n with Node t _ => t end
  | e :: p' => match n with Node _ ts =>
      match find (fun q => edge_eqb e (fst q)) ts with
      | Some q => value_at (snd q) p'
      | None => None
      end end
  end.
Lemma stored_value n p t : wf n -> (stored n p t <-> value_at n p = Some t).
Proof.
  revert n; induction p as [|e p IH]; intros [o ts] W; simpl.
  - split; [intros H; inversion H; auto|intros ->; constructor].
  - inversion W; subst. destruct (find (fun q => edge_eqb e (fst q)) ts) as [[e' ch]|] eqn:E.
    + apply find_some in E. destruct E as [Hi He]. simpl in He. apply edge_eqb_eq in He. subst e'.
      rewrite Forall_forall in H2. specialize (H2 _ Hi). simpl in *. rewrite <- IH by auto. split.
      * intros H; inversion H; subst. assert (ch0 = ch) by (eapply nodup_child; eauto). subst. auto.
      * intros H. eapply st_step; eauto.
    + split; [|discriminate]. intros H; inversion H; subst.
      match goal with K : In (e, _) ts |- _ => apply (find_none _ _ E) in K; simpl in K; rewrite edge_eqb_refl in K end.
      discriminate.
Qed.

Lemma value_at_update f p : forall n p',
  value_at (node_update f p n) p' =
  if path_eq_dec p p' then f (value_at n p) else value_at n p'.
Proof.
  induction p as [|e p IH]; intros [t ts] p'.
  - destruct p' as [|e' p']; simpl.
    + destruct (path_eq_dec [] []); congruence.
    + destruct (path_eq_dec [] (e' :: p')); [discriminate|reflexivity].
  - rewrite node_update_eq. destruct p' as [|e' p'].
    + simpl. destruct (path_eq_dec (e :: p) []); [discriminate|reflexivity].
    + simpl. induction ts as [|[e0 ch] r IHr].
      * simpl. destruct (edge_eqb e' e) eqn:E.
        -- apply edge_eqb_eq in E. subst e'. simpl. rewrite IH.
           destruct (path_eq_dec p p'); destruct (path_eq_dec (e :: p) (e :: p')); try congruence.
           ++ destruct p; reflexivity.
           ++ destruct p'; reflexivity.
        -- destruct (path_eq_dec (e :: p) (e' :: p')) as [Eq|]; auto.
           inversion Eq; subst. rewrite edge_eqb_refl in E. discriminate.
      * simpl. destruct (edge_eqb e e0) eqn:E0.
        -- apply edge_eqb_eq in E0. subst e0. simpl. destruct (edge_eqb e' e) eqn:E1.
           ++ apply edge_eqb_eq in E1. subst e'. simpl. rewrite IH.
              destruct (path_eq_dec p p'); destruct (path_eq_dec (e :: p) (e :: p')); congruence.
           ++ destruct (path_eq_dec (e :: p) (e' :: p')) as [Eq|]; auto.
              inversion Eq; subst. rewrite edge_eqb_refl in E1. discriminate.
        -- simpl. destruct (edge_eqb e' e0) eqn:E1.
           ++ destruct (path_eq_dec (e :: p) (e' :: p')) as [Eq|]; auto.
              inversion Eq; subst. apply edge_eqb_eq in E1. subst. rewrite edge_eqb_refl in E0. discriminate.
           ++ exact IHr.
Qed.

(** ** The content of a trie after a list of insertions *)
Section Content.
Variable compat : bool.
Variable ctx : classes.
Variable d : direction.

Definition all_nonempty (l : list ins_args) : Prop := forall a, In a l -> ins_from d a <> [].

Lemma insert_all_ok l : forall n,
  all_nonempty l ->
  trie_insert_all compat ctx d n l =
  TOk (fold_left (fun n a => node_update (ins_value compat ctx d a) (ins_path ctx d a) n) l n).
Proof.
  induction l as [|a r IH]; intros n H; simpl; auto.
  assert (Ha : ins_from d a <> []) by (apply H; simpl; auto).
  unfold trie_insert at 1. destruct (ins_from d a) eqn:E; [congruence|]. simpl.
  rewrite IH; auto. intros b Hb. apply H. simpl; auto.
Qed.
Lemma insert_all_panic l : forall n,
  ~ all_nonempty l -> trie_insert_all compat ctx d n l = TPanic.
Proof.
  induction l as [|a r IH]; intros n H; simpl.
  - exfalso. apply H. intros a [].
  - unfold trie_insert at 1. destruct (ins_from d a) eqn:E; simpl; auto.
    apply IH. intros H'. apply H. intros b [<-|Hb]; [congruence|auto].
Qed.

Definition build (l : list ins_args) : node :=
  fold_left (fun n a => node_update (ins_value compat ctx d a) (ins_path ctx d a) n) l node_empty.
Lemma build_wf l : wf (build l).
Proof.
  unfold build. assert (G : forall n, wf n -> wf (fold_left (fun n a => node_update (ins_value compat ctx d a) (ins_path ctx d a) n) l n)).
  { induction l as [|a r IH]; intros n W; simpl; auto. apply IH. apply node_update_wf. auto. }
  apply G. apply wf_empty.
Qed.

(** The insertions with a given path, in order. *)
Definition same_path (p : list edge) (a : ins_args) : bool :=
  if path_eq_dec (ins_path ctx d a) p then true else false.
Lemma build_value l p :
  value_at (build l) p =
  fold_left (fun o a => ins_value compat ctx d a o) (filter (same_path p) l) None.
Proof.
  unfold build.
  assert (G : forall n, value_at (fold_left (fun n a => node_update (ins_value compat ctx d a) (ins_path ctx d a) n) l n) p
     = fold_left (fun o a => ins_value compat ctx d a o) (filter (same_path p) l) (value_at n p)).
  { induction l as [|a r IH]; intros n; simpl; auto. rewrite IH, value_at_update.
    unfold same_path at 2. destruct (path_eq_dec (ins_path ctx d a) p) as [E|]; simpl; auto.
    rewrite E. reflexivity. }
  rewrite G. f_equal. destruct p; reflexivity.
Qed.

(** Forward a rule is looked up by its characters and gives its dots; backward the
    reverse. *)
Definition sought (d : direction) (a : ins_args) : str :=
  match d with Forward => i_from a | Backward => i_to a end.
Definition given (d : direction) (a : ins_args) : str :=
  match d with Forward => i_to a | Backward => i_from a end.

(** What an insertion offers: with its full weight (characters and checks) or with the
    number of its characters only. *)
Definition offer (full : bool) (a : ins_args) : resolved :=
  resolved_new (sought d a) (given d a)
    (if full then length (ins_path ctx d a) else length (sought d a)) (i_stage a) (i_origin a).
Definition strong (a : ins_args) : Prop := i_prec a <> PDefault.

(** [chosen l full a]: of the insertions [l], all with the same path, [a] is the one in
    force; [full] tells whether it keeps its full weight.  The default build keeps the
    first insertion unless a later one has a precedence above [Default]: then the last
    of those is in force, but only with the number of its characters as weight.  Without
    the feature the last one is in force. *)
Definition chosen (l : list ins_args) (full : bool) (a : ins_args) : Prop :=
  exists l1 l2, l = l1 ++ a :: l2 /\
    (if compat then (forall b, In b l2 -> ~ strong b) /\ (l1 = [] \/ strong a)
     else l2 = []) /\
    (full = true <-> l1 = [] \/ (compat = false /\ ~ strong a)).

Lemma ins_value_new a o :
  (forall t, o = Some t -> r_prec t = PDefault) ->
  exists t, ins_value compat ctx d a o = Some t /\ r_prec t = PDefault.
Proof.
  intros H. unfold ins_value. destruct o as [t|]; [|eexists; split; reflexivity].
  destruct (prec_gt (i_prec a) (r_prec t)); [eexists; split; reflexivity|].
  destruct compat; [exists t; auto|eexists; split; reflexivity].
Qed.
Lemma strong_dec a : {strong a} + {~ strong a}.
Proof. unfold strong. destruct (i_prec a); [right|left|left]; congruence. Qed.
Lemma prec_gt_strong a t : r_prec t = PDefault ->
  (prec_gt (i_prec a) (r_prec t) = true <-> strong a).
Proof.
  intros ->. unfold strong. destruct (i_prec a); vm_compute; split; try discriminate; auto;
  intros H; exfalso; apply H; reflexivity.
Qed.

Lemma fold_chosen l :
  l <> [] ->
  exists full a, chosen l full a /\
    fold_left (fun o a => ins_value compat ctx d a o) l None = Some (offer full a).
Proof.
  induction l as [|b l IH] using rev_ind; [congruence|]. intros _.
  rewrite fold_left_app. simpl. destruct l as [|x l'].
  - exists true, b. split; [|reflexivity]. exists [], []. split; auto. split.
    + destruct compat; [|auto]. split; [intros b0 []|auto].
    + split; auto.
  - set (l := x :: l') in *. destruct IH as (full & a & (l1 & l2 & El & Hc & Hf) & Ef); [discriminate|].
    rewrite Ef. unfold ins_value.
    destruct (strong_dec b) as [Hb|Hb].
    + assert (G : prec_gt (i_prec b) (r_prec (offer full a)) = true) by (apply prec_gt_strong; auto).
      rewrite G. exists false, b. split; [|reflexivity]. exists l, []. split; auto. split.
      * destruct compat; [|auto]. split; [intros b0 []|auto].
      * split; [discriminate|]. intros [E|[_ E]]; [discriminate|contradiction].
    + assert (G : prec_gt (i_prec b) (r_prec (offer full a)) = false).
      { destruct (prec_gt (i_prec b) (r_prec (offer full a))) eqn:E; auto.
        apply prec_gt_strong in E; [contradiction|reflexivity]. }
      rewrite G. destruct compat eqn:Ec.
      * exists full, a. split; [|reflexivity]. exists l1, (l2 ++ [b]). split.
        { rewrite El, <- app_assoc. reflexivity. }
        rewrite Ec. split; [|exact Hf]. destruct Hc as [Hc1 Hc2]. split; auto.
        intros y Hy. apply in_app_or in Hy. destruct Hy as [Hy|[<-|[]]]; auto.
      * exists true, b. split; [|reflexivity]. exists l, []. split; auto. rewrite Ec. split; auto. split; auto.
Qed.

Lemma split3 {A} (l1 : list A) a l2 m1 a' m2 :
  l1 ++ a :: l2 = m1 ++ a' :: m2 ->
  (l1 = m1 /\ a = a') \/ (In a' l2 /\ m1 <> []) \/ (In a m2 /\ l1 <> []).
Proof.
  revert m1; induction l1 as [|x l1 IH]; intros [|y m1] E; simpl in E; inversion E; subst.
  - auto.
  - right. left. split; [apply in_or_app; simpl; auto|discriminate].
  - right. right. split; [apply in_or_app; simpl; auto|discriminate].
  - destruct (IH m1 H1) as [[-> ->]|[[H _]|[H _]]]; auto.
    + right. left. split; auto; discriminate.
    + right. right. split; auto; discriminate.
Qed.
Lemma chosen_fun l f a f' a' : chosen l f a -> chosen l f' a' ->
  offer f a = offer f' a'.
Proof.
  intros (l1 & l2 & E & Hc & Hf) (m1 & m2 & E' & Hc' & Hf').
  assert (X : l1 = m1 /\ a = a').
  { rewrite E in E'. destruct compat.
    - destruct Hc as [Hc1 Hc2], Hc' as [Hc1' Hc2'].
      destruct (split3 _ _ _ _ _ _ E') as [[E1 E2]|[Hi|Hi]]; auto; exfalso.
      + destruct Hi as [Hi Hne]. destruct Hc2' as [H|H]; [auto|]. apply (Hc1 a'); auto.
      + destruct Hi as [Hi Hne]. destruct Hc2 as [H|H]; [auto|]. apply (Hc1' a); auto.
    - subst l2 m2. apply app_inj_tail in E'. auto. }
  destruct X as [-> ->]. assert (f = f').
  { destruct f, f'; auto; exfalso; intuition discriminate. }
  congruence.
Qed.

Lemma build_stored l p t :
  stored (build l) p t <-> exists full a, chosen (filter (same_path p) l) full a /\ t = offer full a.
Proof.
  rewrite stored_value by apply build_wf. rewrite build_value.
  destruct (filter (same_path p) l) as [|x r] eqn:E.
  - simpl. split; [discriminate|]. intros (full & a & (l1 & l2 & El & _) & _). destruct l1; discriminate.
  - destruct (fold_chosen (x :: r)) as (full & a & Hc & Hf); [discriminate|]. rewrite Hf. split.
    + intros H; inversion H; subst. eauto.
    + intros (full' & a' & Hc' & ->). f_equal. eapply chosen_fun; eauto.
Qed.
End Content.

(** ** Meaning of the path of an insertion *)
(** The boundary conditions of an insertion: the classes required of the preceding
    character (one list per condition) and of the following one. *)
Definition pre_conditions (a : ins_args) : list (list class) :=
  flat_map (fun k => match k with KStart c => [[c]] | KEnd _ => [] end) (i_constraints a) ++
  flat_map (fun t => match t with TrStart ks => [ks] | TrEnd _ => [] end) (opt_list (i_before a)).
Definition post_conditions (a : ins_args) : list (list class) :=
  flat_map (fun t => match t with TrEnd ks => [ks] | TrStart _ => [] end) (opt_list (i_after a)) ++
  flat_map (fun k => match k with KEnd c => [[c]] | KStart _ => [] end) (i_constraints a).

(** How the callers use [insert]: a lookbehind in front, a lookahead behind. *)
Definition well_oriented (a : ins_args) : Prop :=
  (forall ks, i_before a <> Some (TrEnd ks)) /\ (forall ks, i_after a <> Some (TrStart ks)).

(** [text_matches lower from input rest]: the text matches a prefix of the input without
    regard to the case of the input; [rest] is what follows. *)
Inductive text_matches (lower : char -> list char) : str -> str -> str -> Prop :=
| tm_nil input : text_matches lower [] input input
| tm_cons x from c input rest :
    lower c = [x] -> text_matches lower from input rest ->
    text_matches lower (x :: from) (c :: input) rest.

(** An insertion applies at a cursor: its text is there, and its conditions hold of the
    neighbours of that text. *)
Definition applies (lower : char -> list char) (ctx : classes) (d : direction) (a : ins_args)
           (input : str) (prev : option char) : Prop :=
  exists rest, text_matches lower (sought d a) input rest /\
    (forall ks, In ks (pre_conditions a) -> neighbour_in ctx ks prev) /\
    (forall ks, In ks (post_conditions a) -> neighbour_in ctx ks (hd_error rest)).

Lemma pm_starts lower (rcs : list rclasses) p input prev :
  path_matches lower (map EStart rcs ++ p) input prev <->
  (forall rc, In rc rcs -> rc_matches rc prev = true) /\ path_matches lower p input prev.
Proof.
  induction rcs as [|rc rcs IH]; simpl.
  - split; [intros H; split; auto; intros ? []|intros [_ H]; auto].
  - split.
    + intros H; inversion H; subst.
      match goal with K : path_matches _ _ _ _, L : rc_matches _ _ = true |- _ =>
        clear H; rename K into HK; rename L into HL end.
      apply IH in HK. destruct HK as [HA HB]. split; auto.
      intros r [<-|Hr]; auto.
    + intros [H1 H2]. constructor; [apply H1; auto|]. apply IH. split; auto.
Qed.
Lemma pm_ends lower (rcs : list rclasses) input prev :
  path_matches lower (map EEnd rcs) input prev <->
  (forall rc, In rc rcs -> rc_matches rc (hd_error input) = true).
Proof.
  induction rcs as [|rc rcs IH]; simpl.
  - split; [intros _ ? []|constructor].
  - split.
    + intros H; inversion H; subst. intros r [<-|Hr]; auto. apply IH; auto.
    + intros H. constructor; [apply H; auto|]. apply IH. auto.
Qed.
Lemma pm_chars lower from p : forall input prev,
  (forall input' prev1 prev2, path_matches lower p input' prev1 <-> path_matches lower p input' prev2) ->
  (path_matches lower (map ECh from ++ p) input prev <->
   exists rest, text_matches lower from input rest /\ path_matches lower p rest prev).
Proof.
  induction from as [|x from IH]; intros input prev HP; simpl.
  - split; [intros H; exists input; split; auto; constructor|].
    intros (rest & H1 & H2). inversion H1; subst. auto.
  - split.
    + intros H; inversion H as [|x0 p0 c rest0 pv El Hm| |]; subst.
      apply IH in Hm; auto. destruct Hm as (r & HA & HB).
      exists r. split; [constructor; auto|]. eapply HP; eauto.
    + intros (r & H1 & H2). inversion H1; subst. constructor; auto. apply IH; auto.
      exists r. split; auto. eapply HP; eauto.
Qed.
Lemma ins_path_eq ctx d a : well_oriented a ->
  ins_path ctx d a = map EStart (map (rc_resolve ctx) (pre_conditions a)) ++
                     map ECh (ins_from d a) ++
                     map EEnd (map (rc_resolve ctx) (post_conditions a)).
Proof.
  intros [Hb Ha]. unfold ins_path, pre_conditions, post_conditions.
  assert (E1 : flat_map (fun k => match k with KStart c => [EStart (rc_resolve ctx [c])] | KEnd _ => [] end) (i_constraints a)
    = map EStart (map (rc_resolve ctx) (flat_map (fun k => match k with KStart c => [[c]] | KEnd _ => [] end) (i_constraints a)))).
  { induction (i_constraints a) as [|[k|k] r IH]; simpl; auto. f_equal. auto. }
  assert (E2 : flat_map (fun k => match k with KEnd c => [EEnd (rc_resolve ctx [c])] | KStart _ => [] end) (i_constraints a)
    = map EEnd (map (rc_resolve ctx) (flat_map (fun k => match k with KEnd c => [[c]] | KStart _ => [] end) (i_constraints a)))).
  { clear E1. induction (i_constraints a) as [|[k|k] r IH]; simpl; auto. f_equal. auto. }
  assert (E3 : map (resolve_transition ctx) (opt_list (i_before a)) =
    map EStart (map (rc_resolve ctx) (flat_map (fun t => match t with TrStart ks => [ks] | TrEnd _ => [] end) (opt_list (i_before a))))).
  { destruct (i_before a) as [[ks|ks]|] eqn:Eb; simpl; auto. exfalso. eapply Hb; eauto. }
  assert (E4 : map (resolve_transition ctx) (opt_list (i_after a)) =
    map EEnd (map (rc_resolve ctx) (flat_map (fun t => match t with TrEnd ks => [ks] | TrStart _ => [] end) (opt_list (i_after a))))).
  { destruct (i_after a) as [[ks|ks]|] eqn:Eb; simpl; auto. exfalso. eapply Ha; eauto. }
  rewrite E1, E2, E3, E4, !map_app, <- !app_assoc. reflexivity.
Qed.

Lemma path_applies lower ctx d a input prev : well_oriented a ->
  (path_matches lower (ins_path ctx d a) input prev <-> applies lower ctx d a input prev).
Proof.
  intros W. rewrite ins_path_eq, pm_starts, pm_chars by
    (auto; intros; rewrite !pm_ends; tauto).
  unfold applies. split.
  - intros (H1 & rest & H2 & H3). rewrite pm_ends in H3. exists rest. split; auto. split.
    + intros ks Hk. apply rc_matches_spec. apply H1. apply in_map. auto.
    + intros ks Hk. apply rc_matches_spec. apply H3. apply in_map. auto.
  - intros (rest & H1 & H2 & H3). split.
    + intros rc Hr. apply in_map_iff in Hr. destruct Hr as (ks & <- & Hk). apply rc_matches_spec. auto.
    + exists rest. split; auto. apply pm_ends. intros rc Hr. apply in_map_iff in Hr.
      destruct Hr as (ks & <- & Hk). apply rc_matches_spec. auto.
Qed.

(** Two insertions are rivals if they have the same text and the same conditions, where
    two conditions are the same if they admit the same neighbours. *)
Definition same_condition (ctx : classes) (ks ks' : list class) : Prop :=
  forall c, neighbour_in ctx ks c <-> neighbour_in ctx ks' c.
Definition rivals (ctx : classes) (d : direction) (a b : ins_args) : Prop :=
  sought d a = sought d b /\
  Forall2 (same_condition ctx) (pre_conditions a) (pre_conditions b) /\
  Forall2 (same_condition ctx) (post_conditions a) (post_conditions b).

Lemma rc_resolve_same ctx ks ks' :
  rc_resolve ctx ks = rc_resolve ctx ks' <-> same_condition ctx ks ks'.
Proof.
  split.
  - intros E c. rewrite <- !rc_matches_spec, E. tauto.
  - intros H. unfold rc_resolve. f_equal.
    + apply ssorted_ext; try apply sort_dedup_sorted. intros x.
      pose proof (H (Some x)) as Hx. rewrite <- !rc_matches_spec in Hx. simpl in Hx.
      rewrite !mem_In in Hx. exact Hx.
    + pose proof (H None) as Hx. rewrite <- !rc_matches_spec in Hx. simpl in Hx.
      apply Bool.eq_iff_eq_true. exact Hx.
Qed.
Lemma map_resolve_same ctx l l' :
  map (rc_resolve ctx) l = map (rc_resolve ctx) l' <-> Forall2 (same_condition ctx) l l'.
Proof.
  revert l'; induction l as [|k l IH]; intros [|k' l']; simpl; split; intros H; try discriminate.
  - constructor.
  - reflexivity.
  - inversion H.
  - inversion H.
  - injection H as H1 H2 H3. constructor; [apply rc_resolve_same|apply IH; auto].
    unfold rc_resolve. f_equal; auto.
  - inversion H; subst. f_equal; [apply rc_resolve_same; auto|apply IH; auto].
Qed.

Lemma shape_inj (s s' : list rclasses) (f f' : str) (e e' : list rclasses) :
  map EStart s ++ map ECh f ++ map EEnd e = map EStart s' ++ map ECh f' ++ map EEnd e' ->
  s = s' /\ f = f' /\ e = e'.
Proof.
  revert s'; induction s as [|x s IH]; intros [|x' s']; simpl; intros H.
  - split; auto. revert f' H; induction f as [|y f IHf]; intros [|y' f']; simpl; intros H.
    + split; auto. revert e' H; induction e as [|z e IHe]; intros [|z' e']; simpl; intros H; auto; try discriminate.
      inversion H; subst. f_equal; auto.
    + destruct e; discriminate.
    + destruct e'; discriminate.
    + inversion H; subst. destruct (IHf f') as [-> ->]; auto.
  - destruct f; [destruct e|]; discriminate.
  - destruct f'; [destruct e'|]; discriminate.
  - inversion H; subst. destruct (IH s') as (-> & -> & ->); auto.
Qed.
Lemma same_path_rivals ctx d a b : well_oriented a -> well_oriented b ->
  (ins_path ctx d a = ins_path ctx d b <-> rivals ctx d a b).
Proof.
  intros Wa Wb. rewrite !ins_path_eq by auto. unfold rivals. change (sought d) with (ins_from d). rewrite <- !map_resolve_same. split.
  - intros H. apply shape_inj in H. destruct H as (H1 & H2 & H3). auto.
  - intros (-> & -> & ->). reflexivity.
Qed.
Lemma ins_weight_eq ctx d a : well_oriented a ->
  length (ins_path ctx d a) =
  length (sought d a) + length (pre_conditions a) + length (post_conditions a).
Proof. intros W. change (sought d a) with (ins_from d a). rewrite ins_path_eq by auto. rewrite !app_length, !map_length. unfold char. lia. Qed.

(** ** Lookup in a compiled (and shuffled) trie *)
Section Lookup.
Variable lower : char -> list char.
Variable compat : bool.
Variable ctx : classes.
Variable d : direction.

(** [in_force l full a]: [a] is the insertion in force among its rivals in [l]. *)
Definition in_force (l : list ins_args) (full : bool) (a : ins_args) : Prop :=
  exists l1 l2, l = l1 ++ a :: l2 /\
    (if compat
     then (forall b, In b l2 -> rivals ctx d a b -> ~ strong b) /\
          ((forall b, In b l1 -> ~ rivals ctx d a b) \/ strong a)
     else forall b, In b l2 -> ~ rivals ctx d a b) /\
    (full = true <-> (forall b, In b l1 -> ~ rivals ctx d a b) \/ (compat = false /\ ~ strong a)).

Lemma same_path_true p a : same_path ctx d p a = true <-> ins_path ctx d a = p.
Proof. unfold same_path. destruct (path_eq_dec (ins_path ctx d a) p); split; congruence. Qed.

Lemma filter_split {A} (f : A -> bool) l l1 x l2 :
  filter f l = l1 ++ x :: l2 ->
  exists a b, l = a ++ x :: b /\ filter f a = l1 /\ filter f b = l2.
Proof.
  revert l1; induction l as [|y r IH]; intros l1 E; simpl in E.
  - destruct l1; discriminate.
  - destruct (f y) eqn:Ey.
    + destruct l1 as [|z l1]; simpl in E; inversion E; subst.
      * exists [], r. auto.
      * destruct (IH l1 H1) as (a & b & -> & E1 & E2). exists (z :: a), b.
        simpl. rewrite Ey, E1. auto.
    + destruct (IH l1 E) as (a & b & -> & E1 & E2). exists (y :: a), b.
      simpl. rewrite Ey. auto.
Qed.

Lemma chosen_in_force l full a :
  (forall b, In b l -> well_oriented b) ->
  (chosen compat (filter (same_path ctx d (ins_path ctx d a)) l) full a <-> in_force l full a).
Proof.
  intros W.
  assert (R : forall b, In b l -> In a l ->
    (same_path ctx d (ins_path ctx d a) b = true <-> rivals ctx d a b)).
  { intros b Hb Ha. rewrite same_path_true. rewrite <- same_path_rivals by auto. split; congruence. }
  split.
  - intros (m1 & m2 & E & Hc & Hf). apply filter_split in E. destruct E as (l1 & l2 & El & E1 & E2).
    assert (Ha : In a l) by (rewrite El; apply in_or_app; simpl; auto).
    assert (X1 : forall b, In b l1 -> (rivals ctx d a b <-> In b m1)).
    { intros b Hb. subst m1. rewrite filter_In, R; [tauto| |auto]. rewrite El. apply in_or_app; auto. }
    assert (X2 : forall b, In b l2 -> (rivals ctx d a b <-> In b m2)).
    { intros b Hb. subst m2. rewrite filter_In, R; [tauto| |auto]. rewrite El. apply in_or_app; simpl; auto. }
    assert (Y : m1 = [] <-> (forall b, In b l1 -> ~ rivals ctx d a b)).
    { split; [intros -> b Hb Hr; apply X1 in Hr; auto|]. intros H. destruct m1 as [|b m1]; auto.
      exfalso. assert (Hb : In b l1) by (apply (proj1 (filter_In (same_path ctx d (ins_path ctx d a)) b l1)); rewrite E1; simpl; auto).
      apply (H b Hb). apply X1; simpl; auto. }
    exists l1, l2. split; auto. split.
    + destruct compat.
      * destruct Hc as [H1 H2]. split.
        -- intros b Hb Hr. apply H1. apply X2; auto.
        -- destruct H2 as [H2|H2]; auto. left. apply Y. auto.
      * intros b Hb Hr. apply X2 in Hr; auto. rewrite Hc in Hr. destruct Hr.
    + rewrite Hf, Y. tauto.
  - intros (l1 & l2 & El & Hc & Hf).
    assert (Ha : In a l) by (rewrite El; apply in_or_app; simpl; auto).
    assert (X1 : forall b, In b l1 -> (rivals ctx d a b <-> In b (filter (same_path ctx d (ins_path ctx d a)) l1))).
    { intros b Hb. rewrite filter_In, R; [tauto| |auto]. rewrite El. apply in_or_app; auto. }
    assert (X2 : forall b, In b l2 -> (rivals ctx d a b <-> In b (filter (same_path ctx d (ins_path ctx d a)) l2))).
    { intros b Hb. rewrite filter_In, R; [tauto| |auto]. rewrite El. apply in_or_app; simpl; auto. }
    assert (Y : filter (same_path ctx d (ins_path ctx d a)) l1 = [] <-> (forall b, In b l1 -> ~ rivals ctx d a b)).
    { split; [intros E b Hb Hr; apply X1 in Hr; auto; rewrite E in Hr; destruct Hr|].
      intros H. destruct (filter (same_path ctx d (ins_path ctx d a)) l1) as [|b m1] eqn:E; auto.
      exfalso. assert (Hb : In b l1) by (apply (proj1 (filter_In (same_path ctx d (ins_path ctx d a)) b l1)); rewrite E; simpl; auto).
      apply (H b Hb). apply X1; auto. simpl; auto. }
    exists (filter (same_path ctx d (ins_path ctx d a)) l1), (filter (same_path ctx d (ins_path ctx d a)) l2).
    split.
    { rewrite El, filter_app. simpl. rewrite (proj2 (same_path_true _ a) eq_refl). reflexivity. }
    split.
    + destruct compat.
      * destruct Hc as [H1 H2]. split.
        -- intros b Hb. assert (In b l2) by (apply filter_In in Hb; tauto). apply H1; auto. apply X2; auto.
        -- destruct H2 as [H2|H2]; auto. left. apply Y. auto.
      * destruct (filter (same_path ctx d (ins_path ctx d a)) l2) as [|b m2] eqn:E; auto.
        exfalso. assert (Hb : In b l2) by (apply (proj1 (filter_In (same_path ctx d (ins_path ctx d a)) b l2)); rewrite E; simpl; auto).
        apply (Hc b Hb). apply X2; auto. simpl; auto.
    + rewrite Hf, Y. tauto.
Qed.

(** The offers of a compiled trie at a cursor. *)
Theorem find_spec l n n' input prev t :
  (forall a, In a l -> well_oriented a) ->
  trie_insert_all compat ctx d node_empty l = TOk n -> shuffle n n' ->
  (In t (find_translations lower n' input prev) <->
   exists full a, in_force l full a /\ applies lower ctx d a input prev /\ t = offer ctx d full a).
Proof.
  intros W E S.
  assert (Hn : all_nonempty d l).
  { intros a Ha Hf. assert (X : ~ all_nonempty d l) by (intros H; apply (H a Ha Hf)).
    rewrite (insert_all_panic compat ctx d l node_empty X) in E. discriminate. }
  rewrite (insert_all_ok compat ctx d l node_empty Hn) in E. inversion E; subst n; clear E.
  change (fold_left _ l node_empty) with (build compat ctx d l) in S.
  assert (Wf : wf n') by (eapply shuffle_wf; eauto; apply build_wf).
  unfold find_translations. rewrite find_paths_snd, in_map_iff. split.
  - intros ([p t'] & Et & H). simpl in Et. subst t'. apply find_paths_In in H; auto.
    destruct H as [Hs Hm]. apply (shuffle_stored _ _ S) in Hs. apply build_stored in Hs.
    destruct Hs as (full & a & Hc & ->).
    assert (Ep : ins_path ctx d a = p).
    { destruct Hc as (l1 & l2 & El & _). apply same_path_true.
      apply (proj1 (filter_In (same_path ctx d p) a l)). rewrite El. apply in_or_app; simpl; auto. }
    subst p.
    assert (Ha : In a l).
    { destruct Hc as (l1 & l2 & El & _).
      apply (proj1 (filter_In (same_path ctx d (ins_path ctx d a)) a l)). rewrite El. apply in_or_app; simpl; auto. }
    exists full, a. split; [apply chosen_in_force; auto|]. split; auto.
    apply path_applies; auto.
  - intros (full & a & Hf & Ha & ->).
    assert (Hi : In a l) by (destruct Hf as (l1 & l2 & -> & _); apply in_or_app; simpl; auto).
    exists (ins_path ctx d a, offer ctx d full a). split; auto.
    apply find_paths_In; auto. split; [|apply path_applies; auto].
    apply (shuffle_stored _ _ S). apply build_stored. exists full, a. split; auto.
    apply chosen_in_force; auto.
Qed.

(** Each group of rivals is offered at most once. *)
Theorem find_once l n n' input prev :
  (forall a, In a l -> well_oriented a) ->
  trie_insert_all compat ctx d node_empty l = TOk n -> shuffle n n' ->
  exists os : list (bool * ins_args),
    find_translations lower n' input prev = map (fun o => offer ctx d (fst o) (snd o)) os /\
    (forall full a, In (full, a) os -> in_force l full a /\ applies lower ctx d a input prev) /\
    (forall i j fi ai fj aj, nth_error os i = Some (fi, ai) -> nth_error os j = Some (fj, aj) ->
       rivals ctx d ai aj -> i = j).
Proof.
  intros W E S.
  assert (Hn : all_nonempty d l).
  { intros a Ha Hf. assert (X : ~ all_nonempty d l) by (intros H; apply (H a Ha Hf)).
    rewrite (insert_all_panic compat ctx d l node_empty X) in E. discriminate. }
  rewrite (insert_all_ok compat ctx d l node_empty Hn) in E. inversion E; subst n; clear E.
  change (fold_left _ l node_empty) with (build compat ctx d l) in S.
  assert (Wf : wf n') by (eapply shuffle_wf; eauto; apply build_wf).
  unfold find_translations. rewrite find_paths_snd.
  pose proof (find_paths_NoDup lower n' input prev Wf) as ND.
  assert (HI : forall p t, In (p, t) (find_paths lower n' input prev) ->
     exists full a, in_force l full a /\ applies lower ctx d a input prev /\ t = offer ctx d full a /\
                    ins_path ctx d a = p /\ In a l).
  { intros p t H. apply find_paths_In in H; auto.
    destruct H as [Hs Hm]. apply (shuffle_stored _ _ S) in Hs. apply build_stored in Hs.
    destruct Hs as (full & a & Hc & ->).
    assert (Ep : ins_path ctx d a = p).
    { destruct Hc as (l1 & l2 & El & _). apply same_path_true.
      apply (proj1 (filter_In (same_path ctx d p) a l)). rewrite El. apply in_or_app; simpl; auto. }
    subst p.
    assert (Ha : In a l).
    { destruct Hc as (l1 & l2 & El & _).
      apply (proj1 (filter_In (same_path ctx d (ins_path ctx d a)) a l)). rewrite El. apply in_or_app; simpl; auto. }
    exists full, a. split; [apply chosen_in_force; auto|]. split; auto. apply path_applies; auto. }
  revert ND HI. generalize (find_paths lower n' input prev) as ps. intros ps ND HI.
  assert (G : exists os : list (bool * ins_args),
     map snd ps = map (fun o => offer ctx d (fst o) (snd o)) os /\
     map fst ps = map (fun o => ins_path ctx d (snd o)) os /\
     (forall full a, In (full, a) os -> in_force l full a /\ applies lower ctx d a input prev /\ In a l)).
  { clear ND. induction ps as [|[p t] ps IH].
    - exists []. split; auto. split; auto. intros full a [].
    - destruct IH as (os & E1 & E2 & H); [intros; apply HI; simpl; auto|].
      destruct (HI p t) as (full & a & H1 & H2 & -> & <- & H3); [simpl; auto|].
      exists ((full, a) :: os). simpl. rewrite E1, E2. split; auto. split; auto.
      intros f b [E|Hb]; [inversion E; subst; auto|auto]. }
  destruct G as (os & E1 & E2 & H). exists os. split; auto. split; [intros f a Hf; destruct (H f a Hf) as (? & ? & ?); auto|].
  intros i j fi ai fj aj Hi Hj HR.
  assert (Ai : In ai l) by (apply nth_error_In in Hi; apply (H _ _ Hi)).
  assert (Aj : In aj l) by (apply nth_error_In in Hj; apply (H _ _ Hj)).
  apply same_path_rivals in HR; auto. rewrite E2 in ND.
  rewrite NoDup_nth_error in ND. apply ND.
  - rewrite map_length. apply nth_error_Some. congruence.
  - rewrite !nth_error_map, Hi, Hj. simpl. congruence.
Qed.
End Lookup.

Lemma text_matches_length lower from input rest :
  text_matches lower from input rest -> length input = length from + length rest.
Proof. induction 1; simpl; lia. Qed.
Lemma text_matches_lower lower from input rest :
  text_matches lower from input rest ->
  exists txt, input = txt ++ rest /\ map lower txt = map (fun x => [x]) from.
Proof.
  induction 1 as [input|x from c input rest E H (txt & -> & Em)].
  - exists []. auto.
  - exists (c :: txt). simpl. split; auto. f_equal; auto.
Qed.
(** Only the lower-case image of the text matters. *)
Lemma text_matches_case lower from : forall a a' rest,
  Forall2 (fun x y => lower x = lower y) a a' ->
  text_matches lower from a rest ->
  exists rest', text_matches lower from a' rest' /\ Forall2 (fun x y => lower x = lower y) rest rest'.
Proof.
  induction from as [|x from IH]; intros a a' rest F H; inversion H; subst.
  - exists a'. split; [constructor|auto].
  - inversion F as [|x0 y0 l0 l0' Exy Fl]; subst.
    match goal with K : text_matches _ _ _ _, L : text_matches lower (x :: from) _ _ |- _ =>
      destruct (IH _ _ _ Fl K) as (r & HA & HB) end.
    exists r. split; auto. constructor; auto. congruence.
Qed.
