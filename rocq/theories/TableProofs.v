(** Specifications and proofs about display tables, character definitions and
    character classes (TableModel.v). *)
From Verif Require Import Base BaseProofs RuleModel ClassSpec TranslationModel TranslationProofs TableModel.

(** Which of several pairs with the same key counts: the first one in the default
    build ([compat = true]), the last one otherwise. *)
Definition wins {A} (compat : bool) (l : list (N * A)) (k : N) (v : A) : Prop :=
  if compat then first_of l k v else last_of l k v.

Definition ins {A} (compat : bool) (d : list (N * A)) (k : N) (v : A) : list (N * A) :=
  if compat then match assoc k d with Some _ => d | None => (k, v) :: d end
  else (k, v) :: d.

Lemma first_of_app {A} (a b : list (N * A)) k v :
  first_of (a ++ b) k v <-> first_of a k v \/ ((forall w, ~ In (k, w) a) /\ first_of b k v).
Proof.
  rewrite <- !assoc_first, assoc_app, <- assoc_None.
  destruct (assoc k a) as [x|]; split.
  - auto.
  - intros [H|[H _]]; [auto|discriminate].
  - auto.
  - intros [H|[_ H]]; [discriminate|auto].
Qed.
Lemma last_of_app {A} (a b : list (N * A)) k v :
  last_of (a ++ b) k v <-> last_of b k v \/ ((forall w, ~ In (k, w) b) /\ last_of a k v).
Proof.
  rewrite <- !first_rev, rev_app_distr, first_of_app. split; intros [H|[H1 H2]]; auto.
  - right. split; auto. intros w Hw. apply (H1 w). apply -> in_rev. auto.
  - right. split; auto. intros w Hw. apply (H1 w). apply in_rev. auto.
Qed.
Lemma first_of_one {A} k0 (v0 : A) k v : first_of [(k0, v0)] k v <-> k0 = k /\ v0 = v.
Proof.
  split.
  - intros (a & b & E & _). destruct a as [|x a]; simpl in E; inversion E; auto.
    destruct a; discriminate.
  - intros [-> ->]. exists [], []. split; auto.
Qed.
Lemma last_of_one {A} k0 (v0 : A) k v : last_of [(k0, v0)] k v <-> k0 = k /\ v0 = v.
Proof. rewrite <- first_rev. apply first_of_one. Qed.

(** A map [d] implements the history [h] of insertions. *)
Definition tracks {A} (compat : bool) (d : list (N * A)) (h : list (N * A)) : Prop :=
  forall k v, assoc k d = Some v <-> wins compat h k v.

Lemma wins_none {A} compat (h : list (N * A)) k :
  (forall v, ~ wins compat h k v) <-> (forall v, ~ In (k, v) h).
Proof.
  destruct compat; simpl.
  - split; intros H v.
    + intros Hi. destruct (assoc k h) as [w|] eqn:E.
      * apply (H w). apply assoc_first. auto.
      * apply assoc_None with (v := v) in E; auto.
    + intros Hf. apply assoc_first, assoc_In in Hf. apply (H v). auto.
  - split; intros H v.
    + intros Hi. destruct (assoc k (rev h)) as [w|] eqn:E.
      * apply (H w). apply assoc_rev_last. auto.
      * apply assoc_None with (v := v) in E; auto. apply E. apply -> in_rev; auto.
    + intros Hf. apply assoc_rev_last, assoc_In in Hf. apply (H v). apply in_rev. auto.
Qed.

Lemma tracks_None {A} compat (d h : list (N * A)) k :
  tracks compat d h -> (assoc k d = None <-> forall v, ~ In (k, v) h).
Proof.
  intros T. rewrite <- wins_none with (compat := compat). split.
  - intros E v W. apply T in W. congruence.
  - intros H. destruct (assoc k d) as [v|] eqn:E; auto. exfalso. apply (H v). apply T. auto.
Qed.

Lemma tracks_ins {A} compat (d h : list (N * A)) k v :
  tracks compat d h -> tracks compat (ins compat d k v) (h ++ [(k, v)]).
Proof.
  intros T k' v'. unfold ins. destruct compat; simpl.
  - rewrite first_of_app, first_of_one. destruct (assoc k d) as [x|] eqn:E.
    + rewrite (T k' v'). simpl. split; auto. intros [H|[H [-> ->]]]; auto.
      exfalso. apply (H x). apply assoc_In. apply assoc_first. apply T. auto.
    + simpl. destruct (N.eqb_spec k' k).
      * subst. split.
        -- intros H; inversion H; subst. right. split; auto.
           apply (proj1 (tracks_None true d h k T)); auto.
        -- intros [H|[_ [_ ->]]]; auto. apply T in H. congruence.
      * rewrite (T k' v'). simpl. split; auto. intros [H|[_ [E' _]]]; congruence.
  - rewrite last_of_app, last_of_one. destruct (N.eqb_spec k' k).
    + subst. split.
      * intros H; inversion H; subst; auto.
      * intros [[_ ->]|[H _]]; auto. exfalso. apply (H v). simpl; auto.
    + rewrite (T k' v'). simpl. split.
      * intros H. right. split; auto. intros w [E|[]]. congruence.
      * intros [[E _]|[_ H]]; congruence.
Qed.
Lemma tracks_nil {A} compat : @tracks A compat [] [].
Proof.
  intros k v. simpl. split; [discriminate|]. intros H. exfalso.
  assert (X : forall v, ~ In (k, v) (@nil (N * A))) by (intros ? []).
  apply (proj2 (wins_none compat [] k) X v). auto.
Qed.
Lemma wins_In {A} compat (h : list (N * A)) k v : wins compat h k v -> In (k, v) h.
Proof.
  destruct compat; simpl; intros H.
  - apply assoc_first, assoc_In in H. auto.
  - apply assoc_rev_last, assoc_In in H. apply in_rev. auto.
Qed.
Lemma wins_fun {A} compat (h : list (N * A)) k v w :
  wins compat h k v -> wins compat h k w -> v = w.
Proof.
  destruct compat; simpl.
  - rewrite <- !assoc_first. congruence.
  - rewrite <- !assoc_rev_last. congruence.
Qed.
Lemma In_wins {A} compat (h : list (N * A)) k w : In (k, w) h -> exists v, wins compat h k v.
Proof.
  intros Hi. destruct compat; simpl.
  - destruct (assoc k h) as [v|] eqn:E; [exists v; apply assoc_first; auto|].
    apply assoc_None with (v := w) in E. contradiction.
  - destruct (assoc k (rev h)) as [v|] eqn:E; [exists v; apply assoc_rev_last; auto|].
    apply assoc_None with (v := w) in E. exfalso. apply E. apply -> in_rev. auto.
Qed.

(** ** Display tables *)
(** The (from, to) pairs of the display rules of a direction, in table order. *)
Definition display_pairs (d : direction) (rules : list rule) : list (char * char) :=
  flat_map (fun r => match r with
                     | RDisplay c dots k =>
                         if is_direction d r
                         then [match d with Forward => (dots, c) | Backward => (c, dots) end]
                         else []
                     | _ => []
                     end) rules.

Lemma display_tracks compat d rules :
  tracks compat (display_compile compat rules d) (display_pairs d rules).
Proof.
  unfold display_compile.
  assert (G : forall rules m h, tracks compat m h ->
    tracks compat (fold_left (display_step compat d) (filter (is_direction d) rules) m)
                  (h ++ display_pairs d rules)).
  { clear rules. induction rules as [|r rules IH]; intros m h T; simpl.
    - rewrite app_nil_r. auto.
    - destruct (is_direction d r) eqn:E.
      + simpl.
        assert (HS : tracks compat (display_step compat d m r)
                 (h ++ match r with
                       | RDisplay c dots _ => [match d with Forward => (dots, c) | Backward => (c, dots) end]
                       | _ => [] end)).
        { destruct r; try (simpl; rewrite app_nil_r; exact T).
          cbn [display_step]. destruct d; exact (tracks_ins compat m h _ _ T). }
        specialize (IH _ _ HS). rewrite <- app_assoc in IH.
        destruct r; exact IH.
      + specialize (IH _ _ T).
        destruct r; exact IH. }
  apply (G rules [] []). apply tracks_nil.
Qed.

(** ** Character definitions and classes *)
(** The characters a rule defines directly, with their dots. *)
Definition explicit_def (r : rule) : list (char * str) :=
  match r with
  | RSpace c d _ | RPunctuation c d _ | RDigit c d _ | RLitdigit c d _ | RLetter c d _
  | RLowercase c d _ | RUppercase c d _ | RSign c d _ | RMath c d _ | RHyphen c d _
  | RDecpoint c d => [(c, d)]
  | _ => []
  end.
Definition explicit_defs (rules : list rule) : list (char * str) := flat_map explicit_def rules.

(** The history of definitions after the [base] rules of [pre] have been obeyed,
    starting from the history [h]: a [base] rule gives the derived character the dots
    its base has at that point; if it has none the rule has no effect. *)
Inductive base_history (compat : bool) : list (char * str) -> list rule -> list (char * str) -> Prop :=
| bh_nil h : base_history compat h [] h
| bh_base h n d b s rest h' :
    wins compat h b s -> base_history compat (h ++ [(d, s)]) rest h' ->
    base_history compat h (RBase n d b :: rest) h'
| bh_undefined h n d b rest h' :
    (forall s, ~ In (b, s) h) -> base_history compat h rest h' ->
    base_history compat h (RBase n d b :: rest) h'
| bh_other h r rest h' :
    (forall n d b, r <> RBase n d b) -> base_history compat h rest h' ->
    base_history compat h (r :: rest) h'.

(** [dots_after compat rules pre c s]: [c] has the dots [s] once all definitions of the
    table and the [base] rules of the prefix [pre] are taken into account. *)
Definition dots_after (compat : bool) (rules pre : list rule) (c : char) (s : str) : Prop :=
  exists h, base_history compat (explicit_defs rules) pre h /\ wins compat h c s.

(** Classes a character definition puts its character in. *)
Definition explicit_classes (r : rule) : list (char * class) :=
  match r with
  | RSpace c _ _ => [(c, CSpace)]
  | RPunctuation c _ _ | RHyphen c _ _ | RDecpoint c _ => [(c, CPunctuation)]
  | RDigit c _ _ => [(c, CDigit)]
  | RLitdigit c _ _ => [(c, CLitdigit)]
  | RLetter c _ _ => [(c, CLetter)]
  | RLowercase c _ _ => [(c, CLowercase); (c, CLetter)]
  | RUppercase c _ _ => [(c, CUppercase); (c, CLetter)]
  | RSign c _ _ => [(c, CSign)]
  | RMath c _ _ => [(c, CMath)]
  | _ => []
  end.

(** Classes named by a list of characters. *)
Definition listed_class (r : rule) : option (class * str) :=
  match r with
  | RAttribute name chars => Some (class_called name, chars)
  | RSeqdelimiter chars => Some (CSeqdelimiter, chars)
  | RSeqbeforechars chars => Some (CSeqbeforechars, chars)
  | RSeqafterchars chars => Some (CSeqafterchars, chars)
  | RSwapcc name chars _ => Some (class_called name, chars)
  | RSwapcd name chars _ => Some (class_called name, chars)
  | RSwapdd name dots _ => Some (class_called name, dots)
  | _ => None
  end.

(** [in_class compat rules k c]: some rule of the table puts the character [c] in the
    class [k]. *)
Inductive in_class (compat : bool) (rules : list rule) : class -> char -> Prop :=
| ic_defined r k c : In r rules -> In (c, k) (explicit_classes r) -> in_class compat rules k c
| ic_listed r k chars c :
    In r rules -> listed_class r = Some (k, chars) -> In c chars -> in_class compat rules k c
| ic_base pre n c b post s :
    rules = pre ++ RBase n c b :: post -> dots_after compat rules pre b s ->
    in_class compat rules (class_called n) c
| ic_base_letter pre n c b post s :
    rules = pre ++ RBase n c b :: post -> dots_after compat rules pre b s ->
    n = lit "uppercase" \/ n = lit "lowercase" ->
    in_class compat rules CLetter c.

(** In which class the single cell of a listed character is put: its own, except for the
    swap opcodes, whose cells go to [Seqafterchars]. *)
Definition listed_dots_class (r : rule) : option (class * str) :=
  match r with
  | RSwapcc _ chars _ => Some (CSeqafterchars, chars)
  | RSwapcd _ chars _ => Some (CSeqafterchars, chars)
  | RSwapdd _ dots _ => Some (CSeqafterchars, dots)
  | _ => listed_class r
  end.

(** [dots_in_class alph compat rules k x]: some rule puts the cell [x] in class [k]. *)
Inductive dots_in_class (alph : char -> bool) (compat : bool) (rules : list rule) :
  class -> char -> Prop :=
| dc_defined r k c x :
    In r rules -> In (c, k) (explicit_classes r) -> In (c, [x]) (explicit_def r) ->
    dots_in_class alph compat rules k x
| dc_always chars dots k w x :
    In (RAlways chars dots k w) rules -> (forall c, In c chars -> alph c = true) ->
    In x (braille_to_string dots) -> dots_in_class alph compat rules CLetter x
| dc_listed pre r post k chars c x :
    rules = pre ++ r :: post -> listed_dots_class r = Some (k, chars) -> In c chars ->
    dots_after compat rules pre c [x] -> dots_in_class alph compat rules k x.

Lemma class_eqb_eq a b : class_eqb a b = true <-> a = b.
Proof.
  destruct a, b; simpl; split; intros H; try discriminate; try reflexivity.
  - apply str_eqb_eq in H. congruence.
  - inversion H. apply str_eqb_eq. reflexivity.
Qed.

Lemma cls_has_In m k c : cls_has m k c = true <-> In (k, c) m.
Proof.
  assert (X : In c (cls_chars m k) <-> In (k, c) m).
  { unfold cls_chars. rewrite in_map_iff. split.
    - intros ([k' c'] & E & H). simpl in E. subst. apply filter_In in H. destruct H as [H1 H2].
      simpl in H2. apply class_eqb_eq in H2. subst. auto.
    - intros H. exists (k, c). split; auto. apply filter_In. split; auto.
      simpl. apply class_eqb_eq. auto. }
  unfold cls_has, cls_get. rewrite <- X. destruct (cls_chars m k) as [|a l] eqn:E.
  - split; [discriminate|intros []].
  - apply mem_In.
Qed.
Lemma cls_get_In m k l : cls_get m k = Some l -> forall c, In c l <-> In (k, c) m.
Proof.
  intros H c. rewrite <- cls_has_In. unfold cls_has. rewrite H. symmetry. apply mem_In.
Qed.
Lemma cls_get_None m k : cls_get m k = None <-> forall c, ~ In (k, c) m.
Proof.
  split.
  - intros H c Hi. apply cls_has_In in Hi. unfold cls_has in Hi. rewrite H in Hi. discriminate.
  - intros H. destruct (cls_get m k) as [l|] eqn:E; auto. exfalso.
    unfold cls_get in E. destruct (cls_chars m k) as [|a l'] eqn:E'; [discriminate|].
    apply (H a). apply cls_has_In. unfold cls_has, cls_get. rewrite E'. simpl.
    rewrite N.eqb_refl. auto.
Qed.

Section Compile.
Variable alph : char -> bool.
Variable compat : bool.

Lemma fold_cls_insert_k c ks m k' c' :
  In (k', c') (fold_left (fun m k => cls_insert m k c) ks m) <-> In (k', c') m \/ (In k' ks /\ c' = c).
Proof.
  revert m; induction ks as [|k ks IH]; intros m; simpl; [tauto|].
  rewrite IH. unfold cls_insert. simpl. split.
  - intros [[E|H]|[H ->]]; auto. inversion E; subst. auto.
  - intros [H|[[->|H] ->]]; auto.
Qed.
Lemma fold_cls_insert_c k cs m k' c' :
  In (k', c') (fold_left (fun m c => cls_insert m k c) cs m) <-> In (k', c') m \/ (In c' cs /\ k' = k).
Proof.
  revert m; induction cs as [|c cs IH]; intros m; simpl; [tauto|].
  rewrite IH. unfold cls_insert. simpl. split.
  - intros [[E|H]|[H ->]]; auto. inversion E; subst. auto.
  - intros [H|[[->|H] ->]]; auto.
Qed.
Lemma fold_cls_insert_dots dots ks m k' c' :
  In (k', c') (fold_left (fun m k => cls_insert_dots m k dots) ks m) <->
  In (k', c') m \/ (In k' ks /\ dots = [c']).
Proof.
  revert m; induction ks as [|k ks IH]; intros m; simpl; [tauto|].
  rewrite IH. unfold cls_insert_dots, cls_insert.
  destruct dots as [|x [|y r]]; simpl; split.
  - intros [H|[H ->]]; auto.
  - intros [H|[[->|H] E]]; auto; discriminate.
  - intros [[E|H]|[H E]]; auto. inversion E; subst; auto.
  - intros [H|[[->|H] E]]; auto. inversion E; subst; auto.
  - intros [H|[H E]]; auto.
  - intros [H|[[->|H] E]]; auto; discriminate.
Qed.
Lemma fold_cls_insert_assoc k d cs m k' x :
  In (k', x) (fold_left (fun m c => cls_insert_assoc m k c d) cs m) <->
  In (k', x) m \/ (k' = k /\ exists c, In c cs /\ defs_get d c = Some [x]).
Proof.
  revert m; induction cs as [|c cs IH]; intros m; simpl.
  - split; auto. intros [H|[_ (c & [] & _)]]; auto.
  - rewrite IH. unfold cls_insert_assoc, cls_insert. split.
    + intros [H|[-> (c0 & H & E)]].
      * destruct (defs_get d c) as [[|y [|]]|] eqn:Ed; simpl in H; auto.
        destruct H as [E|H]; auto. inversion E; subst. right. split; auto. exists c. auto.
      * right. split; auto. exists c0. auto.
    + intros [H|[-> (c0 & [->|H] & E)]].
      * left. destruct (defs_get d c) as [[|y [|]]|]; simpl; auto.
      * left. rewrite E. simpl. auto.
      * right. split; auto. exists c0; auto.
Qed.

(** State of the compiler after the first loop has seen [done]. *)
Definition inv1 (done : list rule) (x : context) : Prop :=
  tracks compat (x_defs x) (explicit_defs done) /\
  (forall k c, In (k, c) (x_chars x) <-> exists r, In r done /\ In (c, k) (explicit_classes r)) /\
  (forall k y, In (k, y) (x_dots x) <->
     (exists r c, In r done /\ In (c, k) (explicit_classes r) /\ In (c, [y]) (explicit_def r)) \/
     (k = CLetter /\ exists chars dots kk w, In (RAlways chars dots kk w) done /\
        forallb alph chars = true /\ In y (braille_to_string dots))) /\
  x_swaps x = [].

Lemma define_inv done x r c d ks :
  explicit_def r = [(c, d)] -> explicit_classes r = map (fun k => (c, k)) ks ->
  (forall chars dots kk w, r <> RAlways chars dots kk w) ->
  inv1 done x -> inv1 (done ++ [r]) (define compat x c d ks).
Proof.
  intros Ed Ec Ha (I1 & I2 & I3 & I4). unfold define, inv1. cbn [x_defs x_chars x_dots x_swaps].
  repeat split.
  - intros H. unfold explicit_defs. rewrite flat_map_app. simpl. rewrite app_nil_r, Ed.
    apply (tracks_ins compat (x_defs x) _ c d I1). exact H.
  - intros H. unfold explicit_defs in H. rewrite flat_map_app in H. simpl in H.
    rewrite app_nil_r, Ed in H. apply (tracks_ins compat (x_defs x) _ c d I1). exact H.
  - rewrite fold_cls_insert_k, I2. intros [(r' & H & E)|[H ->]].
    + exists r'. split; auto. apply in_or_app; auto.
    + exists r. split; [apply in_or_app; simpl; auto|]. rewrite Ec. apply in_map_iff. eauto.
  - rewrite fold_cls_insert_k, I2. intros (r' & H & E). apply in_app_or in H.
    destruct H as [H|[<-|[]]]; [left; eauto|]. right. rewrite Ec in E. apply in_map_iff in E.
    destruct E as (k' & E & H). inversion E; subst. auto.
  - rewrite fold_cls_insert_dots, I3. intros [[(r' & c' & H & E & F)|(-> & cs & ds & kk & w & H & E & F)]|[H ->]].
    + left. exists r', c'. repeat split; auto. apply in_or_app; auto.
    + right. split; auto. exists cs, ds, kk, w. repeat split; auto. apply in_or_app; auto.
    + left. exists r, c. split; [apply in_or_app; simpl; auto|]. rewrite Ec, Ed. simpl.
      split; auto. apply in_map_iff. eauto.
  - rewrite fold_cls_insert_dots, I3. intros [(r' & c' & H & E & F)|(-> & cs & ds & kk & w & H & E & F)].
    + apply in_app_or in H. destruct H as [H|[<-|[]]].
      * left. left. exists r', c'. auto.
      * right. rewrite Ed in F. destruct F as [F|[]]. inversion F; subst. rewrite Ec in E.
        apply in_map_iff in E. destruct E as (k' & E & H). inversion E; subst. auto.
    + left. right. split; auto. apply in_app_or in H. destruct H as [H|[H|[]]].
      * exists cs, ds, kk, w. auto.
      * exfalso. eapply Ha; eauto.
  - exact I4.
Qed.

Lemma skip_inv done x r :
  explicit_def r = [] -> explicit_classes r = [] ->
  (forall chars dots kk w, r <> RAlways chars dots kk w \/ forallb alph chars = false) ->
  inv1 done x -> inv1 (done ++ [r]) x.
Proof.
  intros Ed Ec Ha (I1 & I2 & I3 & I4). unfold inv1. repeat split; auto.
  - intros H. unfold explicit_defs. rewrite flat_map_app. simpl. rewrite app_nil_r, Ed, app_nil_r.
    apply I1. exact H.
  - intros H. unfold explicit_defs in H. rewrite flat_map_app in H. simpl in H.
    rewrite app_nil_r, Ed, app_nil_r in H. apply I1. exact H.
  - rewrite I2. intros (r' & H & E). exists r'. split; auto. apply in_or_app; auto.
  - rewrite I2. intros (r' & H & E). apply in_app_or in H. destruct H as [H|[<-|[]]]; [eauto|].
    rewrite Ec in E. destruct E.
  - rewrite I3. intros [(r' & c' & H & E & F)|(-> & cs & ds & kk & w & H & E & F)].
    + left. exists r', c'. repeat split; auto. apply in_or_app; auto.
    + right. split; auto. exists cs, ds, kk, w. repeat split; auto. apply in_or_app; auto.
  - rewrite I3. intros [(r' & c' & H & E & F)|(-> & cs & ds & kk & w & H & E & F)].
    + apply in_app_or in H. destruct H as [H|[<-|[]]].
      * left. exists r', c'. auto.
      * rewrite Ed in F. destruct F.
    + right. split; auto. apply in_app_or in H. destruct H as [H|[H|[]]].
      * exists cs, ds, kk, w. auto.
      * destruct (Ha cs ds kk w) as [X|X]; [exfalso; apply X; auto|congruence].
Qed.

Lemma step1_inv done x r : inv1 done x -> inv1 (done ++ [r]) (context_step1 alph compat x r).
Proof.
  intros I.
  destruct r; cbn [context_step1];
    try (apply define_inv; [reflexivity|reflexivity|intros; discriminate|exact I]);
    try (apply skip_inv; [reflexivity|reflexivity|intros; left; discriminate|exact I]).
  destruct (forallb alph chars) eqn:E.
  - destruct I as (I1 & I2 & I3 & I4). unfold inv1. cbn [x_defs x_chars x_dots x_swaps].
    repeat split; auto.
    + intros H. unfold explicit_defs. rewrite flat_map_app. simpl. rewrite app_nil_r.
      apply I1. exact H.
    + intros H. unfold explicit_defs in H. rewrite flat_map_app in H. simpl in H.
      rewrite app_nil_r in H. apply I1. exact H.
    + rewrite I2. intros (r' & H & F). exists r'. split; auto. apply in_or_app; auto.
    + rewrite I2. intros (r' & H & F). apply in_app_or in H. destruct H as [H|[<-|[]]]; [eauto|].
      destruct F.
    + rewrite fold_cls_insert_c, I3.
      intros [[(r' & c' & H & E' & F)|(-> & cs & ds & kk & w' & H & E' & F)]|[H ->]].
      * left. exists r', c'. repeat split; auto. apply in_or_app; auto.
      * right. split; auto. exists cs, ds, kk, w'. repeat split; auto. apply in_or_app; auto.
      * right. split; auto. exists chars, dots, k, w. repeat split; auto.
        apply in_or_app; simpl; auto.
    + rewrite fold_cls_insert_c, I3.
      intros [(r' & c' & H & E' & F)|(-> & cs & ds & kk & w' & H & E' & F)].
      * apply in_app_or in H. destruct H as [H|[<-|[]]]; [left; left; exists r', c'; auto|destruct F].
      * apply in_app_or in H. destruct H as [H|[H|[]]].
        -- left. right. split; auto. exists cs, ds, kk, w'. auto.
        -- inversion H; subst. right. auto.
  - apply skip_inv; [reflexivity|reflexivity| |exact I].
    intros cs ds kk w'. destruct (list_eq_dec N.eq_dec cs chars) as [->|Hn].
    + right; auto.
    + left. intros X; inversion X; subst. congruence.
Qed.

Lemma fold1_inv rules : inv1 rules (fold_left (context_step1 alph compat) rules context_empty).
Proof.
  assert (G : forall rest done x, inv1 done x ->
     inv1 (done ++ rest) (fold_left (context_step1 alph compat) rest x)).
  { induction rest as [|r rest IH]; intros done x I; simpl.
    - rewrite app_nil_r. auto.
    - replace (done ++ r :: rest) with ((done ++ [r]) ++ rest) by (rewrite <- app_assoc; auto).
      apply IH. apply step1_inv. auto. }
  apply (G rules []). unfold inv1. cbn. repeat split.
  - apply tracks_nil.
  - apply tracks_nil.
  - intros [].
  - intros (r & [] & _).
  - intros [].
  - intros [(r & c & [] & _)|(_ & cs & ds & kk & w & [] & _)].
Qed.

(** State of the compiler in the second loop, [pre] being done. *)
Definition inv2 (rules pre : list rule) (x : context) : Prop :=
  (exists h, base_history compat (explicit_defs rules) pre h /\ tracks compat (x_defs x) h) /\
  (forall k c, In (k, c) (x_chars x) <->
     (exists r, In r rules /\ In (c, k) (explicit_classes r)) \/
     (exists r chars, In r pre /\ listed_class r = Some (k, chars) /\ In c chars) \/
     (exists p1 n b p2 s, pre = p1 ++ RBase n c b :: p2 /\ dots_after compat rules p1 b s /\
        (k = class_called n \/ (k = CLetter /\ (n = lit "uppercase" \/ n = lit "lowercase"))))) /\
  (forall k y, In (k, y) (x_dots x) <->
     ((exists r c, In r rules /\ In (c, k) (explicit_classes r) /\ In (c, [y]) (explicit_def r)) \/
      (k = CLetter /\ exists chars dots kk w, In (RAlways chars dots kk w) rules /\
        forallb alph chars = true /\ In y (braille_to_string dots))) \/
     (exists p1 r p2 chars c, pre = p1 ++ r :: p2 /\ listed_dots_class r = Some (k, chars) /\
        In c chars /\ dots_after compat rules p1 c [y])).

Lemma base_history_app h pre h1 rest h2 :
  base_history compat h pre h1 -> base_history compat h1 rest h2 -> base_history compat h (pre ++ rest) h2.
Proof.
  induction 1; simpl; intros; auto.
  - eapply bh_base; eauto.
  - apply bh_undefined; auto.
  - apply bh_other; auto.
Qed.

Lemma base_history_fun h pre h1 h2 :
  base_history compat h pre h1 -> base_history compat h pre h2 -> h1 = h2.
Proof.
  intros A; revert h2.
  induction A as [h|h n d b s0 rest h' W B IH|h n d b rest h' U B IH|h r rest h' U B IH];
    intros h2 X; inversion X; subst; auto;
    try (exfalso; match goal with H : forall n d b, _ <> _ |- _ => eapply H; reflexivity end);
    try (exfalso; match goal with H : wins _ _ _ _, K : forall s, ~ In _ _ |- _ =>
                    apply wins_In in H; eapply K; eauto end).
  match goal with K : wins _ _ b ?s |- _ => assert (s0 = s) by (eapply wins_fun; eauto) end.
  subst. auto.
Qed.

Lemma inv2_get rules pre x c s :
  inv2 rules pre x -> (defs_get (x_defs x) c = Some s <-> dots_after compat rules pre c s).
Proof.
  intros ((h & H1 & H2) & _). unfold defs_get. rewrite (H2 c s). split.
  - intros W. exists h. auto.
  - intros (h' & H1' & W). rewrite (base_history_fun _ _ _ _ H1 H1'). auto.
Qed.

Lemma app_split_one {A} (p1 : list A) r p2 pre r' :
  p1 ++ r :: p2 = pre ++ [r'] -> (exists q, pre = p1 ++ r :: q /\ p2 = q ++ [r']) \/ (p1 = pre /\ r = r' /\ p2 = []).
Proof.
  intros E. destruct (exists_last (l := r :: p2)) as (q & z & Eq); [discriminate|].
  destruct p2 as [|y p2'].
  - right. apply app_inj_tail in E. destruct E; auto.
  - left. destruct (exists_last (l := y :: p2')) as (q' & z' & Eq'); [discriminate|].
    rewrite Eq' in *. rewrite app_comm_cons, app_assoc in E. apply app_inj_tail in E.
    destruct E as [E1 E2]. subst. exists q'. auto.
Qed.

(** A rule of the second loop that only lists characters, or does nothing. *)
Lemma listed_inv rules pre x r k kd chars sw :
  inv2 rules pre x -> (forall n d b, r <> RBase n d b) ->
  listed_class r = Some (k, chars) -> listed_dots_class r = Some (kd, chars) ->
  inv2 rules (pre ++ [r])
       (mk_context (x_defs x) (x_chars (attribute_chars x k kd chars))
                   (x_dots (attribute_chars x k kd chars)) sw).
Proof.
  intros I Hb E1 E2. pose proof (fun c s => inv2_get rules pre x c s I) as G.
  destruct I as ((h & H1 & H2) & I2 & I3). unfold inv2, attribute_chars.
  cbn [x_defs x_chars x_dots x_swaps]. repeat split.
  - exists h. split; auto. eapply base_history_app; eauto. apply bh_other; auto. constructor.
  - rewrite fold_cls_insert_c, I2. intros [[H|[(r' & cs & H & E & F)|(p1 & n & b & p2 & s & E & F)]]|[H ->]]; auto.
    + right. left. exists r', cs. repeat split; auto. apply in_or_app; auto.
    + right. right. exists p1, n, b, (p2 ++ [r]), s. split; auto. subst pre.
      rewrite <- app_assoc. reflexivity.
    + right. left. exists r, chars. repeat split; auto. apply in_or_app; simpl; auto.
  - rewrite fold_cls_insert_c, I2. intros [H|[(r' & cs & H & E & F)|(p1 & n & b & p2 & s & E & F)]]; auto.
    + apply in_app_or in H. destruct H as [H|[<-|[]]].
      * left. right. left. eauto.
      * rewrite E1 in E. inversion E; subst. auto.
    + symmetry in E. apply app_split_one in E. destruct E as [(q & E & _)|(_ & E & _)].
      * left. right. right. exists p1, n, b, q, s. auto.
      * exfalso. symmetry in E. eapply Hb; eauto.
  - rewrite fold_cls_insert_assoc, I3. intros [[H|(p1 & r' & p2 & cs & c' & E & F)]|[-> (c' & H & E)]]; auto.
    + right. exists p1, r', (p2 ++ [r]), cs, c'. split; auto. subst pre.
      rewrite <- app_assoc. reflexivity.
    + right. exists pre, r, [], chars, c'. repeat split; auto. apply G. auto.
  - rewrite fold_cls_insert_assoc, I3. intros [H|(p1 & r' & p2 & cs & c' & E & F1 & F2 & F3)]; auto.
    symmetry in E. apply app_split_one in E. destruct E as [(q & E & _)|(-> & -> & _)].
    + left. right. exists p1, r', q, cs, c'. auto.
    + right. rewrite E2 in F1. inversion F1; subst. split; auto. exists c'. split; auto. apply G. auto.
Qed.

Lemma other_inv rules pre x r :
  inv2 rules pre x -> (forall n d b, r <> RBase n d b) ->
  listed_class r = None -> inv2 rules (pre ++ [r]) x.
Proof.
  intros I Hb E1.
  assert (E2 : listed_dots_class r = None) by (destruct r; try discriminate; reflexivity).
  destruct I as ((h & H1 & H2) & I2 & I3). unfold inv2. repeat split.
  - exists h. split; auto. eapply base_history_app; eauto. apply bh_other; auto. constructor.
  - rewrite I2. intros [H|[(r' & cs & H & E & F)|(p1 & n & b & p2 & s & E & F)]]; auto.
    + right. left. exists r', cs. repeat split; auto. apply in_or_app; auto.
    + right. right. exists p1, n, b, (p2 ++ [r]), s. split; auto. subst pre.
      rewrite <- app_assoc. reflexivity.
  - rewrite I2. intros [H|[(r' & cs & H & E & F)|(p1 & n & b & p2 & s & E & F)]]; auto.
    + apply in_app_or in H. destruct H as [H|[<-|[]]]; [right; left; eauto|congruence].
    + symmetry in E. apply app_split_one in E. destruct E as [(q & E & _)|(_ & E & _)].
      * right. right. exists p1, n, b, q, s. auto.
      * exfalso. symmetry in E. eapply Hb; eauto.
  - rewrite I3. intros [H|(p1 & r' & p2 & cs & c' & E & F)]; auto.
    right. exists p1, r', (p2 ++ [r]), cs, c'. split; auto. subst pre.
    rewrite <- app_assoc. reflexivity.
  - rewrite I3. intros [H|(p1 & r' & p2 & cs & c' & E & F1 & F2 & F3)]; auto.
    symmetry in E. apply app_split_one in E. destruct E as [(q & E & _)|(-> & -> & _)].
    + right. exists p1, r', q, cs, c'. auto.
    + congruence.
Qed.

Lemma base_undef_inv rules pre x n d b :
  inv2 rules pre x -> defs_get (x_defs x) b = None -> inv2 rules (pre ++ [RBase n d b]) x.
Proof.
  intros I Eb. pose proof (fun c s => inv2_get rules pre x c s I) as G.
  destruct I as ((h & H1 & H2) & I2 & I3). unfold inv2. repeat split.
  - exists h. split; auto. eapply base_history_app; eauto. apply bh_undefined; [|constructor].
    apply (tracks_None compat _ _ b H2). auto.
  - rewrite I2. intros [H|[(r' & cs & H & E & F)|(p1 & n' & b' & p2 & s & E & F)]]; auto.
    + right. left. exists r', cs. repeat split; auto. apply in_or_app; auto.
    + right. right. exists p1, n', b', (p2 ++ [RBase n d b]), s. split; auto. subst pre.
      rewrite <- app_assoc. reflexivity.
  - rewrite I2. intros [H|[(r' & cs & H & E & F)|(p1 & n' & b' & p2 & s & E & F)]]; auto.
    + apply in_app_or in H. destruct H as [H|[<-|[]]]; [right; left; eauto|discriminate].
    + symmetry in E. apply app_split_one in E. destruct E as [(q & E & _)|(-> & E & _)].
      * right. right. exists p1, n', b', q, s. auto.
      * exfalso. inversion E; subst. destruct F as [F _]. apply G in F. congruence.
  - rewrite I3. intros [H|(p1 & r' & p2 & cs & c' & E & F)]; auto.
    right. exists p1, r', (p2 ++ [RBase n d b]), cs, c'. split; auto. subst pre.
    rewrite <- app_assoc. reflexivity.
  - rewrite I3. intros [H|(p1 & r' & p2 & cs & c' & E & F1 & F2 & F3)]; auto.
    symmetry in E. apply app_split_one in E. destruct E as [(q & E & _)|(-> & -> & _)].
    + right. exists p1, r', q, cs, c'. auto.
    + discriminate.
Qed.

Definition base_classes (n : str) (m : classes) (d : char) : classes :=
  let m := cls_insert m (class_called n) d in
  if str_eqb n (lit "uppercase") || str_eqb n (lit "lowercase")
  then cls_insert m CLetter d else m.
Lemma base_classes_In n m d k c :
  In (k, c) (base_classes n m d) <->
  In (k, c) m \/ (c = d /\ (k = class_called n \/ (k = CLetter /\ (n = lit "uppercase" \/ n = lit "lowercase")))).
Proof.
  unfold base_classes. cbv zeta.
  destruct (str_eqb n (lit "uppercase") || str_eqb n (lit "lowercase")) eqn:E.
  - apply orb_true_iff in E. rewrite !str_eqb_eq in E. unfold cls_insert. split.
    + intros [H|[H|H]]; auto; inversion H; subst; auto.
    + intros [H|[-> [->|[-> H]]]]; simpl; auto.
  - apply orb_false_iff in E. destruct E as [Ea Eb]. unfold cls_insert. split.
    + intros [H|H]; auto; inversion H; subst; auto.
    + intros [H|[-> [->|[-> [-> | ->]]]]]; simpl; auto.
      * rewrite (proj2 (str_eqb_eq _ _) eq_refl) in Ea. discriminate.
      * rewrite (proj2 (str_eqb_eq _ _) eq_refl) in Eb. discriminate.
Qed.

Lemma base_inv rules pre x n d b t sw :
  inv2 rules pre x -> defs_get (x_defs x) b = Some t ->
  inv2 rules (pre ++ [RBase n d b])
       (mk_context (defs_insert compat (x_defs x) d t) (base_classes n (x_chars x) d) (x_dots x) sw).
Proof.
  intros I Eb. pose proof (fun c s => inv2_get rules pre x c s I) as G.
  destruct I as ((h & H1 & H2) & I2 & I3). unfold inv2. cbn [x_defs x_chars x_dots x_swaps].
  repeat split.
  - exists (h ++ [(d, t)]). split.
    + eapply base_history_app; eauto. eapply bh_base; [|constructor]. apply H2. auto.
    + exact (tracks_ins compat (x_defs x) h d t H2).
  - rewrite base_classes_In, I2.
    intros [[H|[(r' & cs & H & E & F)|(p1 & n' & b' & p2 & s & E & F)]]|[-> H]]; auto.
    + right. left. exists r', cs. repeat split; auto. apply in_or_app; auto.
    + right. right. exists p1, n', b', (p2 ++ [RBase n d b]), s. split; auto. subst pre.
      rewrite <- app_assoc. reflexivity.
    + right. right. exists pre, n, b, [], t. split; auto. split; auto. apply G. auto.
  - rewrite base_classes_In, I2.
    intros [H|[(r' & cs & H & E & F)|(p1 & n' & b' & p2 & s & E & F1 & F2)]]; auto.
    + apply in_app_or in H. destruct H as [H|[<-|[]]]; [left; right; left; eauto|discriminate].
    + symmetry in E. apply app_split_one in E. destruct E as [(q & E & _)|(-> & E & _)].
      * left. right. right. exists p1, n', b', q, s. auto.
      * inversion E; subst. right. auto.
  - rewrite I3. intros [H|(p1 & r' & p2 & cs & c' & E & F)]; auto.
    right. exists p1, r', (p2 ++ [RBase n d b]), cs, c'. split; auto. subst pre.
    rewrite <- app_assoc. reflexivity.
  - rewrite I3. intros [H|(p1 & r' & p2 & cs & c' & E & F1 & F2 & F3)]; auto.
    symmetry in E. apply app_split_one in E. destruct E as [(q & E & _)|(-> & -> & _)].
    + right. exists p1, r', q, cs, c'. auto.
    + discriminate.
Qed.

Lemma step2_inv rules pre x r x' :
  inv2 rules pre x -> context_step2 compat x r = TOk x' -> inv2 rules (pre ++ [r]) x'.
Proof.
  intros I E.
  destruct r; cbn [context_step2] in E;
    try (inversion E; subst x'; clear E; apply other_inv; [exact I|intros; discriminate|reflexivity]);
    try (inversion E; subst x'; clear E; unfold add_swap;
         eapply (listed_inv rules pre x); [exact I|intros; discriminate|reflexivity|reflexivity]).
  destruct (defs_get (x_defs x) base) as [t|] eqn:Eb.
  - inversion E; subst x'; clear E. exact (base_inv rules pre x name derived base t _ I Eb).
  - assert (Ex : x' = x) by (destruct compat; [congruence|discriminate]). subst x'.
    apply base_undef_inv; auto.
Qed.

Lemma fold2_inv rules rest : forall pre x x',
  inv2 rules pre x -> context_fold2 compat x rest = TOk x' -> inv2 rules (pre ++ rest) x'.
Proof.
  induction rest as [|r rest IH]; intros pre x x' I E; simpl in E.
  - inversion E; subst. rewrite app_nil_r. auto.
  - destruct (context_step2 compat x r) as [x1| |] eqn:E1; try discriminate. simpl in E.
    replace (pre ++ r :: rest) with ((pre ++ [r]) ++ rest) by (rewrite <- app_assoc; auto).
    eapply IH; eauto. eapply step2_inv; eauto.
Qed.

Lemma start2 rules : inv2 rules [] (fold_left (context_step1 alph compat) rules context_empty).
Proof.
  destruct (fold1_inv rules) as (I1 & I2 & I3 & I4). unfold inv2. repeat split.
  - exists (explicit_defs rules). split; [constructor|auto].
  - rewrite I2. auto.
  - rewrite I2. intros [H|[(r & cs & [] & _)|(p1 & n & b & p2 & s & E & _)]]; auto.
    destruct p1; discriminate.
  - rewrite I3. auto.
  - rewrite I3. intros [H|(p1 & r & p2 & cs & c & E & _)]; auto. destruct p1; discriminate.
Qed.

Theorem compile_defs rules x c s :
  context_compile alph compat rules = TOk x ->
  (defs_get (x_defs x) c = Some s <-> dots_after compat rules rules c s).
Proof.
  intros E. apply inv2_get. apply (fold2_inv rules rules [] _ x (start2 rules)). exact E.
Qed.

Theorem compile_classes rules x k c :
  context_compile alph compat rules = TOk x ->
  (cls_has (x_chars x) k c = true <-> in_class compat rules k c).
Proof.
  intros E. pose proof (fold2_inv rules rules [] _ x (start2 rules) E) as (_ & I2 & _).
  rewrite cls_has_In, I2. simpl. split.
  - intros [(r & H & F)|[(r & cs & H & F & G)|(p1 & n & b & p2 & s & H & F & [->|[-> G]])]].
    + eapply ic_defined; eauto.
    + eapply ic_listed; eauto.
    + eapply ic_base; eauto.
    + eapply ic_base_letter; eauto.
  - intros H. destruct H as [r k' c' H F|r k' cs c' H F G|pre n c' b post s H F|pre n c' b post s H F G].
    + eauto.
    + right. left. eauto.
    + right. right. exists pre, n, b, post, s. auto.
    + right. right. exists pre, n, b, post, s. auto.
Qed.

Theorem compile_dots_classes rules x k y :
  context_compile alph compat rules = TOk x ->
  (cls_has (x_dots x) k y = true <-> dots_in_class alph compat rules k y).
Proof.
  intros E. pose proof (fold2_inv rules rules [] _ x (start2 rules) E) as (_ & _ & I3).
  rewrite cls_has_In, I3. simpl. split.
  - intros [[(r & c & H & F & G)|(-> & cs & ds & kk & w & H & F & G)]|(p1 & r & p2 & cs & c & H & F & G & K)].
    + eapply dc_defined; eauto.
    + eapply dc_always; eauto. rewrite forallb_forall in F. auto.
    + eapply dc_listed; eauto.
  - intros H. destruct H as [r k' c x' H F G|cs ds kk w x' H F G|pre r post k' cs c x' H F G K].
    + left. left. eauto.
    + left. right. split; auto. exists cs, ds, kk, w. repeat split; auto. apply forallb_forall. auto.
    + right. exists pre, r, post, cs, c. auto.
Qed.

(** Compilation of the context fails only without [compat], and then exactly when the
    base of some base rule is undefined at that point. *)
Lemma fold2_total rules rest : forall pre x,
  inv2 rules pre x ->
  (exists x', context_fold2 compat x rest = TOk x') \/
  (exists p n d b q, rest = p ++ RBase n d b :: q /\ compat = false /\
     context_fold2 compat x rest = TErr (BaseCharacterNotDefined b d) /\
     forall s, ~ dots_after compat rules (pre ++ p) b s).
Proof.
  induction rest as [|r rest IH]; intros pre x I; simpl.
  - left; eauto.
  - destruct (context_step2 compat x r) as [x1|e|] eqn:E1; simpl.
    + pose proof (step2_inv rules pre x r x1 I E1) as I'.
      destruct (IH _ _ I') as [H|(p & n & d & b & q & -> & H1 & H2 & H3)]; [auto|].
      right. exists (r :: p), n, d, b, q. repeat split; auto. rewrite <- app_assoc in H3. exact H3.
    + right. destruct r; cbn [context_step2] in E1; try discriminate.
      destruct (defs_get (x_defs x) base) as [t|] eqn:Eb; [discriminate|].
      assert (Ec : compat = false /\ e = BaseCharacterNotDefined base derived)
        by (destruct compat; [discriminate|]; split; congruence).
      destruct Ec as [Ec ->].
      exists [], name, derived, base, rest. repeat split; auto.
      intros s Hs. rewrite app_nil_r in Hs. apply (inv2_get rules pre x base s I) in Hs. congruence.
    + destruct r; cbn [context_step2] in E1; try discriminate.
      destruct (defs_get (x_defs x) base); [discriminate|]. destruct compat; discriminate.
Qed.

Theorem compile_total rules :
  (exists x, context_compile alph compat rules = TOk x) \/
  (exists p n d b q, rules = p ++ RBase n d b :: q /\ compat = false /\
     context_compile alph compat rules = TErr (BaseCharacterNotDefined b d) /\
     forall s, ~ dots_after compat rules p b s).
Proof.
  destruct (fold2_total rules rules [] _ (start2 rules)) as [H|(p & n & d & b & q & H1 & H2 & H3 & H4)]; auto.
  right. exists p, n, d, b, q. auto.
Qed.
End Compile.

(** With [compat], a definition never changes once made. *)
Lemma first_grow {A} (h : list (N * A)) k v e : first_of h k v -> first_of (h ++ e) k v.
Proof. intros H. apply first_of_app. auto. Qed.
Lemma base_history_grows h pre h' : base_history true h pre h' -> exists e, h' = h ++ e.
Proof.
  induction 1.
  - exists []. rewrite app_nil_r. auto.
  - destruct IHbase_history as (e & ->). rewrite <- app_assoc. eauto.
  - auto.
  - auto.
Qed.

(** In the default build: the first explicit definition of a character is its
    definition. *)
Lemma explicit_wins rules pre c s :
  first_of (explicit_defs rules) c s ->
  (exists h, base_history true (explicit_defs rules) pre h) ->
  dots_after true rules pre c s.
Proof.
  intros H (h & B). exists h. split; auto. destruct (base_history_grows _ _ _ B) as (e & ->).
  simpl. apply first_grow. auto.
Qed.
Lemma base_history_exists h pre : exists h', base_history true h pre h'.
Proof.
  revert h; induction pre as [|r pre IH]; intros h; [exists h; constructor|].
  assert (X : (exists n d b, r = RBase n d b) \/ (forall n d b, r <> RBase n d b)).
  { destruct r; try (right; intros; discriminate). left; eauto. }
  destruct X as [(n & d & b & ->)|X].
  - destruct (assoc b h) as [s|] eqn:E.
    + destruct (IH (h ++ [(d, s)])) as (h' & B). exists h'. eapply bh_base; eauto.
      simpl. apply assoc_first. auto.
    + destruct (IH h) as (h' & B). exists h'. eapply bh_undefined; eauto.
      apply assoc_None. auto.
  - destruct (IH h) as (h' & B). exists h'. apply bh_other; auto.
Qed.
(** The other definitions come from a base rule, and are the dots of the base. *)
Lemma derived_from_base rules c s :
  dots_after true rules rules c s -> (forall w, ~ In (c, w) (explicit_defs rules)) ->
  exists n b, In (RBase n c b) rules /\ dots_after true rules rules b s.
Proof.
  intros (h & B & W) Hn.
  assert (G : forall h0 pre h1, base_history true h0 pre h1 -> forall c s, first_of h1 c s ->
     first_of h0 c s \/ exists n b, In (RBase n c b) pre /\ first_of h1 b s).
  { clear. induction 1 as [h|h n d b s0 rest h' W B IH|h n d b rest h' U B IH|h r rest h' U B IH]; intros c s F.
    - auto.
    - destruct (IH c s F) as [F'|(n' & b' & Hi & Hf)].
      + apply first_of_app in F'. destruct F' as [F'|[_ F']]; auto.
        apply first_of_one in F'. destruct F' as [-> ->]. right. exists n, b. split; [simpl; auto|].
        destruct (base_history_grows _ _ _ B) as (e & ->). rewrite <- app_assoc. apply first_grow. auto.
      + right. exists n', b'. split; [simpl; auto|auto].
    - destruct (IH c s F) as [F'|(n' & b' & Hi & Hf)]; auto. right. exists n', b'. simpl; auto.
    - destruct (IH c s F) as [F'|(n' & b' & Hi & Hf)]; auto. right. exists n', b'. simpl; auto. }
  destruct (G _ _ _ B c s W) as [F|(n & b & Hi & Hf)].
  - exfalso. apply (Hn s). apply assoc_first, assoc_In in F. auto.
  - exists n, b. split; auto. exists h. auto.
Qed.

(** ** [=] operands *)
(** The concatenation of the characters' own dots. *)
Inductive spells (d : chardefs) : str -> str -> Prop :=
| sp_nil : spells d [] []
| sp_cons c s r t : assoc c d = Some s -> spells d r t -> spells d (c :: r) (s ++ t).

Lemma resolve_implicit_ok d chars out :
  resolve_implicit d chars = TOk out <-> spells d chars out.
Proof.
  revert out; induction chars as [|c r IH]; intros out; simpl; split.
  - intros H; inversion H; constructor.
  - intros H; inversion H; reflexivity.
  - unfold defs_get. destruct (assoc c d) as [s|] eqn:E; [|discriminate].
    destruct (resolve_implicit d r) as [t| |]; try discriminate. simpl. intros H; inversion H; subst.
    constructor; auto. apply IH. auto.
  - intros H; inversion H; subst. unfold defs_get.
    match goal with H : assoc c d = Some _ |- _ => rewrite H end.
    match goal with H : spells d r _ |- _ => apply IH in H; rewrite H end. reflexivity.
Qed.
Lemma resolve_implicit_err d chars e :
  resolve_implicit d chars = TErr e <->
  exists a c b, chars = a ++ c :: b /\ e = ImplicitCharacterNotDefined c /\
                assoc c d = None /\ (forall x, In x a -> assoc x d <> None).
Proof.
  revert e; induction chars as [|c r IH]; intros e; simpl; split.
  - discriminate.
  - intros (a & c & b & E & _). destruct a; discriminate.
  - unfold defs_get. destruct (assoc c d) as [s|] eqn:E.
    + destruct (resolve_implicit d r) as [t|e'|] eqn:Er; try discriminate. simpl.
      intros H; inversion H; subst. destruct (proj1 (IH e) eq_refl) as (a & c' & b & -> & -> & Hn & Ha).
      exists (c :: a), c', b. repeat split; auto. intros x [<-|Hx]; [congruence|auto].
    + intros H; inversion H; subst. exists [], c, r. repeat split; auto.
  - intros (a & c' & b & Ea & -> & Hn & Ha). unfold defs_get. destruct a as [|x a]; simpl in Ea; inversion Ea; subst.
    + rewrite Hn. reflexivity.
    + destruct (assoc x d) as [s|] eqn:E; [|exfalso; apply (Ha x); simpl; auto].
      rewrite (proj2 (IH (ImplicitCharacterNotDefined c'))); [reflexivity|].
      exists a, c', b. repeat split; auto. intros y Hy. apply Ha. simpl; auto.
Qed.
Lemma resolve_implicit_app d a b :
  resolve_implicit d (a ++ b) =
  tdo x <- resolve_implicit d a; tdo y <- resolve_implicit d b; TOk (x ++ y).
Proof.
  induction a as [|c r IH]; simpl.
  - destruct (resolve_implicit d b); reflexivity.
  - destruct (defs_get d c); [|reflexivity]. rewrite IH.
    destruct (resolve_implicit d r); simpl; auto. destruct (resolve_implicit d b); simpl; auto.
    rewrite app_assoc. reflexivity.
Qed.
Lemma resolve_implicit_no_panic d a : resolve_implicit d a <> TPanic.
Proof.
  induction a as [|c r IH]; simpl; [discriminate|].
  destruct (defs_get d c); [|discriminate]. destruct (resolve_implicit d r); simpl; congruence.
Qed.
