(** The reader of test files reads the documents of YamlSpec.v and gives what they mean. *)
From Coq Require Import List String Sorted Lia.
From Verif Require Import Base BaseProofs RuleModel TableModel BrailleModel BrailleProofs HyphenationModel TrieModel OperandModel OperandSpec
  UnescapeSpec UnescapeProofs
  LoopModel ConstraintModel IndicatorModel PipelineModel ParserModel LineProofs IncludeModel TranslatorModel YamlModel YamlSpec.
Import ListNotations.
Local Open Scope nat_scope.

Definition preads {A} (p : yp A) (is : node -> A -> Prop) : Prop :=
  forall es a r, p es = YOk (a, r) <-> exists n, es = events n ++ r /\ is n a.
Definition no_scalar (r : list yevent) : Prop := forall b v t, r <> YScalar b v :: t.

Lemma bind_ok {A B} (m : yres A) (f : A -> yres B) b : ybind m f = YOk b <-> exists a, m = YOk a /\ f a = YOk b.
Proof. destruct m as [a|e| |]; cbn [ybind]; (split; [try discriminate; eauto|intros (x & [=] & Hx); subst; exact Hx]). Qed.
Lemma bind_ok2 {A B} (m : yres (A * list yevent)) (f : A -> list yevent -> yres B) b :
  (ydo (x, y) <- m; f x y) = YOk b <-> exists x y, m = YOk (x, y) /\ f x y = YOk b.
Proof.
  rewrite bind_ok. split.
  - intros ([x y] & H & E). eauto.
  - intros (x & y & H & E). exists (x, y). auto.
Qed.
Lemma scalar_reads : preads y_scalar text.
Proof.
  intros es a r. unfold y_scalar, text. split.
  - destruct es as [|[] es]; try discriminate. intros [= <- <-]. exists (Scalar block v). cbn. eauto.
  - intros (n & -> & b & ->). reflexivity.
Qed.
Lemma map_start_ok es r u : mapping_start es = YOk (u, r) <-> es = YMapStart :: r.
Proof. unfold mapping_start. destruct u. split; [destruct es as [|[]]; try discriminate; intros [= <-]; reflexivity|intros ->; reflexivity]. Qed.
Lemma map_end_ok es r u : mapping_end es = YOk (u, r) <-> es = YMapEnd :: r.
Proof. unfold mapping_end. destruct u. split; [destruct es as [|[]]; try discriminate; intros [= <-]; reflexivity|intros ->; reflexivity]. Qed.
Lemma seq_start_ok es r u : sequence_start es = YOk (u, r) <-> es = YSeqStart :: r.
Proof. unfold sequence_start. destruct u. split; [destruct es as [|[]]; try discriminate; intros [= <-]; reflexivity|intros ->; reflexivity]. Qed.
Lemma seq_end_ok es r u : sequence_end es = YOk (u, r) <-> es = YSeqEnd :: r.
Proof. unfold sequence_end. destruct u. split; [destruct es as [|[]]; try discriminate; intros [= <-]; reflexivity|intros ->; reflexivity]. Qed.

(** ** Loops *)
Inductive steps {A X} (step : A -> X -> A -> Prop) : A -> list X -> A -> Prop :=
| st_nil a : steps step a [] a
| st_cons a x a' xs a'' : step a x a' -> steps step a' xs a'' -> steps step a (x :: xs) a''.
Lemma steps_collect {A X} (is : X -> A -> Prop) xs : forall (l l' : list A),
  steps (fun l x l' => exists a, is x a /\ l' = l ++ [a]) l xs l' <-> exists as_, Forall2 is xs as_ /\ l' = l ++ as_.
Proof.
  induction xs as [|x xs IH]; intros l l'; split.
  - intros H. inversion H; subst. exists []. rewrite app_nil_r. auto.
  - intros (as_ & F & ->). inversion F; subst. rewrite app_nil_r. constructor.
  - intros H. inversion H as [|? ? ? ? ? (a & I & ->) H']; subst. apply IH in H'. destruct H' as (as_ & F & ->).
    exists (a :: as_). rewrite <- app_assoc. auto.
  - intros (as_ & F & ->). inversion F as [|? a ? as' I F']; subst. econstructor; [exists a; eauto|]. apply IH. exists as'. rewrite <- app_assoc. auto.
Qed.

Section Loop.
Context {A X : Type} (body : A -> yp A) (ev : X -> list yevent) (step : A -> X -> A -> Prop).
Hypothesis BODY : forall a es a' r, body a es = YOk (a', r) <-> exists x, es = ev x ++ r /\ step a x a'.
Hypothesis HEAD : forall a x a', step a x a' -> exists b v t, ev x = YScalar b v :: t.
Lemma loop_ok : forall fuel a es a' r, scalar_loop body fuel a es = YOk (a', r) <->
  exists xs, es = flat_map ev xs ++ r /\ length xs <= fuel /\ steps step a xs a' /\ no_scalar r.
Proof.
  induction fuel as [|fuel IH]; intros a es a' r.
  - split.
    + destruct es as [|[] es]; cbn; try discriminate; intros [= <- <-]; exists []; cbn; (split; [reflexivity|split; [lia|split; [constructor|intros ? ? ? [=]]]]).
    + intros ([|x xs] & -> & L & S & N); [|cbn in L; lia]. inversion S; subst. cbn. destruct r as [|[] r]; try reflexivity. destruct (N block v r eq_refl).
  - assert (Stop : no_scalar es -> scalar_loop body (S fuel) a es = YOk (a, es)).
    { intros N. destruct es as [|[] es]; try reflexivity. destruct (N block v es eq_refl). }
    assert (D : no_scalar es \/ exists b v t, es = YScalar b v :: t).
    { destruct es as [|[] es]; try (left; intros ? ? ? [=]; fail). right. eauto. }
    destruct D as [N|(b & v & t & ->)].
    + rewrite (Stop N). split.
      * intros [= <- <-]. exists []. cbn. split; [reflexivity|]. split; [lia|]. split; [constructor|exact N].
      * intros ([|x xs] & E & L & S & _); inversion S as [|? ? ? ? ? S1 S2]; subst; [reflexivity|].
        destruct (HEAD _ _ _ S1) as (b & v & t & Ev). destruct (N b v (t ++ flat_map ev xs ++ r)). cbn. rewrite Ev. cbn. rewrite app_assoc. reflexivity.
    + cbn [scalar_loop]. rewrite bind_ok2. split.
      * intros (a1 & r1 & E1 & E2). apply BODY in E1. destruct E1 as (x & Ex & Sx). apply IH in E2. destruct E2 as (xs & -> & L & S & N).
        exists (x :: xs). cbn. rewrite Ex, <- app_assoc. split; [reflexivity|]. split; [lia|]. split; [econstructor; eassumption|exact N].
      * intros ([|x xs] & E & L & S & N).
        { cbn in E. destruct (N b v t). symmetry. exact E. }
        inversion S as [|? ? a1 ? ? S1 S2]; subst. exists a1, (flat_map ev xs ++ r). split.
        { apply BODY. exists x. cbn in E. rewrite E, <- app_assoc. auto. }
        apply IH. exists xs. cbn in L. split; [reflexivity|]. split; [lia|auto].
Qed.
Lemma while_ok a es a' r : while_scalar body a es = YOk (a', r) <->
  exists xs, es = flat_map ev xs ++ r /\ steps step a xs a' /\ no_scalar r.
Proof.
  unfold while_scalar. rewrite loop_ok. split.
  - intros (xs & E & _ & S & N). eauto.
  - intros (xs & E & S & N). exists xs. split; [exact E|]. split; [|auto]. rewrite E, app_length.
    clear E. assert (length xs <= length (flat_map ev xs)); [|lia]. clear N. induction S as [|a x a1 xs a2 S1 S2 IH]; [cbn; lia|].
    destruct (HEAD _ _ _ S1) as (b & v & t & Ev). cbn. rewrite app_length, Ev. cbn. lia.
Qed.
Hypothesis TOTAL : forall a es, body a es <> YNoFuel.
Lemma loop_total : forall fuel a es, length es <= fuel -> scalar_loop body fuel a es <> YNoFuel.
Proof.
  induction fuel as [|fuel IH]; intros a es L.
  - destruct es; [discriminate|cbn in L; lia].
  - destruct es as [|e es]; [discriminate|]. cbn [scalar_loop]. destruct e; try discriminate. set (es0 := YScalar block v :: es) in *.
    destruct (body a es0) as [[a1 r1]|e| |] eqn:E; cbn [ybind]; try discriminate; [|destruct (TOTAL _ _ E)].
    apply IH. apply BODY in E. destruct E as (x & Ex & Sx). destruct (HEAD _ _ _ Sx) as (b & w & t & Ev).
    apply (f_equal (@length _)) in Ex. rewrite app_length, Ev in Ex. cbn [length] in Ex. lia.
Qed.
Lemma while_total a es : while_scalar body a es <> YNoFuel.
Proof. apply loop_total. lia. Qed.
End Loop.

Definition pair_events (kv : node * node) : list yevent := events (fst kv) ++ events (snd kv).
Lemma no_scalar_cons e r : match e with YScalar _ _ => False | _ => True end -> no_scalar (e :: r).
Proof. intros H b v t [= -> ->]. exact H. Qed.

(** a mapping, a sequence *)
Lemma mapping_reads {A} (body : A -> yp A) (step : A -> node * node -> A -> Prop) a0 :
  (forall a es a' r, body a es = YOk (a', r) <-> exists x, es = pair_events x ++ r /\ step a x a') ->
  (forall a x a', step a x a' -> exists v, text (fst x) v) ->
  preads (fun es => ydo (_, es) <- mapping_start es; ydo (a, es) <- while_scalar body a0 es; ydo (_, es) <- mapping_end es; YOk (a, es))
         (fun n a => exists l, n = Mapping l /\ steps step a0 l a).
Proof.
  intros B H es a r. rewrite bind_ok2.
  assert (W := while_ok body pair_events step B). 
  assert (H' : forall a x a', step a x a' -> exists b v t, pair_events x = YScalar b v :: t).
  { intros a1 x a2 S. destruct (H _ _ _ S) as (v & b & E). unfold pair_events. rewrite E. cbn. eauto. }
  specialize (W H'). split.
  - intros (u & es1 & E1 & E). apply map_start_ok in E1. subst es. apply bind_ok2 in E. destruct E as (a1 & es2 & E2 & E). apply W in E2.
    destruct E2 as (xs & -> & S & _). apply bind_ok2 in E. destruct E as (u2 & es3 & E3 & [= -> ->]). apply map_end_ok in E3. subst es2.
    exists (Mapping xs). cbn. rewrite <- app_assoc. split; [reflexivity|]. eauto.
  - intros (n & -> & l & -> & S). exists tt, (flat_map pair_events l ++ YMapEnd :: r). split; [cbn; rewrite <- app_assoc; reflexivity|].
    apply bind_ok2. exists a, (YMapEnd :: r). split; [apply W; exists l; split; [reflexivity|split; [exact S|apply no_scalar_cons; exact I]]|].
    reflexivity.
Qed.
Lemma sequence_reads {A} (body : A -> yp A) (step : A -> node -> A -> Prop) a0 :
  (forall a es a' r, body a es = YOk (a', r) <-> exists x, es = events x ++ r /\ step a x a') ->
  (forall a x a', step a x a' -> exists v, text x v) ->
  preads (fun es => ydo (_, es) <- sequence_start es; ydo (a, es) <- while_scalar body a0 es; ydo (_, es) <- sequence_end es; YOk (a, es))
         (fun n a => exists l, n = Sequence l /\ steps step a0 l a).
Proof.
  intros B H es a r. rewrite bind_ok2.
  assert (W := while_ok body events step B). 
  assert (H' : forall a x a', step a x a' -> exists b v t, events x = YScalar b v :: t).
  { intros a1 x a2 S. destruct (H _ _ _ S) as (v & b & E). rewrite E. cbn. eauto. }
  specialize (W H'). split.
  - intros (u & es1 & E1 & E). apply seq_start_ok in E1. subst es. apply bind_ok2 in E. destruct E as (a1 & es2 & E2 & E). apply W in E2.
    destruct E2 as (xs & -> & S & _). apply bind_ok2 in E. destruct E as (u2 & es3 & E3 & [= -> ->]). apply seq_end_ok in E3. subst es2.
    exists (Sequence xs). cbn. rewrite <- app_assoc. split; [reflexivity|]. eauto.
  - intros (n & -> & l & -> & S). exists tt, (flat_map events l ++ YSeqEnd :: r). split; [cbn; rewrite <- app_assoc; reflexivity|].
    apply bind_ok2. exists a, (YSeqEnd :: r). split; [apply W; exists l; split; [reflexivity|split; [exact S|apply no_scalar_cons; exact I]]|].
    reflexivity.
Qed.
(** a list of values *)
Lemma list_reads {A} (p : yp A) (is : node -> A -> Prop) :
  preads p is -> (forall n a, is n a -> exists v, text n v) ->
  preads (fun es => ydo (_, es) <- sequence_start es;
                    ydo (l, es) <- while_scalar (fun l es => ydo (v, es) <- p es; YOk (l ++ [v], es)) [] es;
                    ydo (_, es) <- sequence_end es; YOk (l, es))
         (fun n l => exists ns, n = Sequence ns /\ Forall2 is ns l).
Proof.
  intros P T es a r.
  refine (iff_trans (sequence_reads (fun l es => ydo (v, es) <- p es; YOk (l ++ [v], es)) (fun l x l' => exists a, is x a /\ l' = l ++ [a]) [] _ _ es a r) _); cycle 2.
  - split; intros (n & -> & l & -> & S); (eexists; split; [reflexivity|]; exists l; split; [reflexivity|]).
    + apply steps_collect in S. destruct S as (as_ & F & ->). exact F.
    + apply steps_collect. exists a. auto.
  - clear es a r. intros a es a' r. rewrite bind_ok2. split.
    + intros (v & es1 & E & [= <- <-]). apply P in E. destruct E as (n & -> & In). exists n. eauto.
    + intros (x & -> & v & I & ->). exists v, r. split; [apply P; eauto|reflexivity].
  - intros a1 x a2 (v & I & _). eauto.
Qed.

(** ** Tables *)
Lemma table_list_reads : preads table_list (fun n l => exists ns, n = Sequence ns /\ Forall2 text ns l).
Proof. apply (list_reads y_scalar text scalar_reads). eauto. Qed.
Lemma y_display_reads : preads y_display display_is.
Proof.
  intros es a r. split.
  - unfold y_display. destruct es as [|[] es]; try discriminate.
    + destruct block; rewrite bind_ok2; intros (w & es1 & [= <- <-] & E).
      * injection E as <- <-. exists (Scalar true v). split; [reflexivity|constructor].
      * destruct (mem 44%N v) eqn:M; injection E as <- <-; exists (Scalar false v); (split; [reflexivity|]).
        -- pattern v at 1. rewrite <- (split_join 44%N v). constructor.
           ++ apply mem_In in M. destruct (split_on 44%N v) as [|p [|q ps]] eqn:E; [destruct (split_nonempty _ _ E)| |cbn; lia].
              exfalso. apply (split_clean 44%N v p); [rewrite E; left; reflexivity|]. rewrite <- (split_join 44%N v), E in M. cbn in M. rewrite app_nil_r in M. exact M.
           ++ apply Forall_forall. intros p Ip. eapply split_clean, Ip.
        -- constructor. intros I. apply mem_In in I. congruence.
    + rewrite bind_ok2. intros (l & es1 & E & [= <- <-]). apply table_list_reads in E. destruct E as (n & -> & ns & -> & F). exists (Sequence ns). split; [reflexivity|constructor; exact F].
  - intros (n & -> & H). destruct H as [v N|parts L F|v|l paths F]; cbn [events app y_display].
    + cbn. destruct (mem 44%N v) eqn:M; [apply mem_In in M; contradiction|reflexivity].
    + cbn. destruct parts as [|p ps]; [cbn in L; lia|].
      assert (M : mem 44%N (joins 44%N (p :: ps)) = true).
      { apply mem_In. destruct ps as [|q ps]; [cbn in L; lia|]. cbn. apply in_or_app. right. left. reflexivity. }
      rewrite M. change 44%N with 44%N. rewrite split_of_join by exact F. reflexivity.
    + reflexivity.
    + apply bind_ok2. exists paths, r. split; [|reflexivity]. apply table_list_reads. exists (Sequence l). split; [reflexivity|eauto].
Qed.
Lemma steps_query l : forall q q', steps (fun q kv q' => exists ab, both_text kv ab /\ q' = ab :: q) q l q' <->
  exists q1, Forall2 both_text l q1 /\ q' = rev q1 ++ q.
Proof.
  induction l as [|x l IH]; intros q q'; split.
  - intros H. inversion H; subst. exists []. auto.
  - intros (q1 & F & ->). inversion F; subst. constructor.
  - intros H. inversion H as [|? ? ? ? ? (ab & B & ->) H']; subst. apply IH in H'. destruct H' as (q1 & F & ->). exists (ab :: q1). cbn. rewrite <- app_assoc. auto.
  - intros (q1 & F & ->). inversion F as [|? ab ? q2 B F']; subst. econstructor; [exists ab; eauto|]. apply IH. exists q2. cbn. rewrite <- app_assoc. auto.
Qed.
Lemma table_query_reads : preads table_query (fun n q => exists l q1, n = Mapping l /\ Forall2 both_text l q1 /\ q = rev q1).
Proof.
  intros es a r. unfold table_query.
  refine (iff_trans (mapping_reads (fun q es => ydo (k, es) <- y_scalar es; ydo (v, es) <- y_scalar es; YOk ((k, v) :: q, es))
             (fun q kv q' => exists ab, both_text kv ab /\ q' = ab :: q) [] _ _ es a r) _); cycle 2.
  - split.
    + intros (n & -> & l & -> & S). apply steps_query in S. destruct S as (q1 & F & ->). rewrite app_nil_r. exists (Mapping l). split; [reflexivity|]. eauto.
    + intros (n & -> & l & q1 & -> & F & ->). exists (Mapping l). split; [reflexivity|]. exists l. split; [reflexivity|]. apply steps_query. exists q1. rewrite app_nil_r. auto.
  - clear es a r. intros q es q' r. rewrite bind_ok2. split.
    + intros (k & es1 & E & E'). apply bind_ok2 in E'. destruct E' as (v & es2 & E' & [= <- <-]). apply scalar_reads in E, E'.
      destruct E as (nk & -> & Tk), E' as (nv & -> & Tv). exists (nk, nv). unfold pair_events. cbn. rewrite <- app_assoc. split; [reflexivity|].
      exists (k, v). split; [split; assumption|reflexivity].
    + intros ([nk nv] & -> & [k v] & [Tk Tv] & ->). cbn in Tk, Tv. unfold pair_events. cbn. rewrite <- app_assoc. exists k, (events nv ++ r). split; [apply scalar_reads; eauto|].
      apply bind_ok2. exists v, r. split; [apply scalar_reads; eauto|reflexivity].
  - intros q x q' ([k v] & [T _] & _). eauto.
Qed.
Lemma query_get_ok q k v : query_get (rev q) k = Some v <-> assigned k q v.
Proof.
  unfold query_get, assigned. split.
  - induction q as [|[k' v'] q IH] using rev_ind; [discriminate|]. rewrite rev_app_distr. cbn. destruct (str_eqb k' k) eqn:E.
    + apply str_eqb_eq in E. subst. intros [= <-]. exists q, []. cbn. auto.
    + intros H. destruct (IH H) as (a & b & -> & N). exists a, (b ++ [(k', v')]). split; [rewrite <- app_assoc; reflexivity|].
      rewrite map_app. intros I. apply in_app_or in I. destruct I as [I|[I|[]]]; [contradiction|]. cbn in I. subst k'.
      rewrite (proj2 (str_eqb_eq k k) eq_refl) in E. discriminate.
  - intros (a & b & -> & N). induction b as [|[k' v'] b IH] using rev_ind.
    + rewrite rev_app_distr. cbn. rewrite (proj2 (str_eqb_eq k k) eq_refl). reflexivity.
    + rewrite map_app in N. assert (N1 : ~ In k (map fst b)) by (intros I; apply N, in_or_app; auto).
      specialize (IH N1). rewrite app_comm_cons, app_assoc, rev_app_distr. cbn [rev app find fst].
      destruct (str_eqb k' k) eqn:E; [|exact IH]. apply str_eqb_eq in E. subst. destruct N. apply in_or_app. right. left. reflexivity.
Qed.
Lemma query_none q k : query_get (rev q) k = None <-> ~ In k (map fst q).
Proof.
  split.
  - intros H I. induction q as [|[k' v'] q IH] using rev_ind; [destruct I|].
    unfold query_get in *. rewrite rev_app_distr in H. cbn in H. destruct (str_eqb k' k) eqn:E; [discriminate|]. apply (IH H).
    rewrite map_app in I. apply in_app_or in I. destruct I as [I|[I|[]]]; [exact I|]. cbn in I. subst k'. rewrite (proj2 (str_eqb_eq k k) eq_refl) in E. discriminate.
  - intros N. destruct (query_get (rev q) k) as [v|] eqn:E; [|reflexivity]. apply query_get_ok in E. destruct E as (a & b & -> & _). destruct N.
    rewrite map_app. apply in_or_app. right. left. reflexivity.
Qed.
Lemma y_table_reads : preads y_table table_is.
Proof.
  intros es a r. split.
  - unfold y_table. destruct es as [|[] es]; try discriminate.
    + destruct block; rewrite bind_ok2; intros (w & es1 & [= <- <-] & [= <- <-]); [exists (Scalar true v)|exists (Scalar false v)]; (split; [reflexivity|constructor]).
    + rewrite bind_ok2. intros (l & es1 & E & [= <- <-]). apply table_list_reads in E. destruct E as (n & -> & ns & -> & F). exists (Sequence ns). split; [reflexivity|constructor; exact F].
    + rewrite bind_ok2. intros (q & es1 & E & H). apply table_query_reads in E. destruct E as (n & -> & l & q1 & -> & F & ->). exists (Mapping l).
      destruct (query_get (rev q1) _) as [v|] eqn:E; injection H as <- <-; (split; [reflexivity|]).
      * apply query_get_ok in E. eapply ta_match; eassumption.
      * apply query_none in E. apply ta_query; assumption.
  - intros (n & -> & H). destruct H as [v|v|l paths F|l q v F H|l q F H].
    + reflexivity.
    + reflexivity.
    + cbn [events app y_table]. apply bind_ok2. exists paths, r. split; [|reflexivity]. apply table_list_reads. exists (Sequence l). split; [reflexivity|eauto].
    + cbn [events app y_table]. apply bind_ok2. exists (rev q), r. split; [apply table_query_reads; exists (Mapping l); split; [reflexivity|eauto]|].
      apply query_get_ok in H. rewrite H. reflexivity.
    + cbn [events app y_table]. apply bind_ok2. exists (rev q), r. split; [apply table_query_reads; exists (Mapping l); split; [reflexivity|eauto]|].
      apply query_none in H. rewrite H. reflexivity.
Qed.

(** ** Flags *)
Lemma named_ok {A} (l : list (string * A)) v a : NoDup (map (fun x => lit (fst x)) l) ->
  (named l v = Some a <-> exists w, v = lit w /\ In (w, a) l).
Proof.
  induction l as [|[w x] l IH]; intros ND; [split; [discriminate|intros (w & _ & [])]|].
  inversion ND as [|? ? N1 N2]; subst. cbn [named]. destruct (str_eqb (lit w) v) eqn:E.
  - apply str_eqb_eq in E. subst v. split.
    + intros [= <-]. exists w. split; [reflexivity|left; reflexivity].
    + intros (w' & E & [I|I]); [congruence|]. destruct N1. cbn [fst]. apply in_map_iff. exists (w', a). cbn. auto.
  - rewrite (IH N2). split; intros (w' & -> & I); exists w'; (split; [reflexivity|]).
    + right. exact I.
    + destruct I as [[= -> ->]|I]; [|exact I]. rewrite (proj2 (str_eqb_eq _ _) eq_refl) in E. discriminate.
Qed.
Ltac nodup_words := repeat (constructor; [cbn; intros I; repeat (destruct I as [I|I]; [discriminate I|]); destruct I|]); constructor.
Lemma test_modes_nodup : NoDup (map (fun x => lit (fst x)) test_modes). Proof. unfold test_modes. cbn [map fst]. nodup_words. Qed.
Lemma mode_names_nodup : NoDup (map (fun x => lit (fst x)) mode_names). Proof. unfold mode_names. cbn [map fst]. nodup_words. Qed.
Lemma eqb_false a b : str_eqb a b = false <-> a <> b.
Proof. split; [intros E ->; rewrite (proj2 (str_eqb_eq b b) eq_refl) in E; discriminate|]. intros N. destruct (str_eqb a b) eqn:E; [apply str_eqb_eq in E; contradiction|reflexivity]. Qed.
Lemma y_flags_reads : preads y_flags mode_is.
Proof.
  intros es a r. unfold y_flags. rewrite bind_ok2. split.
  - intros (u & es1 & E1 & E). apply map_start_ok in E1. subst es. apply bind_ok2 in E. destruct E as (k & es2 & E2 & E). apply scalar_reads in E2.
    destruct E2 as (nk & -> & Tk). destruct (str_eqb k (lit "testmode")) eqn:Ek; [|discriminate]. cbn [negb] in E. apply str_eqb_eq in Ek. subst k.
    apply bind_ok2 in E. destruct E as (v & es3 & E3 & E). apply scalar_reads in E3. destruct E3 as (nv & -> & Tv).
    destruct (named test_modes v) as [m|] eqn:Em; [|discriminate]. apply bind_ok2 in E. destruct E as (u2 & es4 & E4 & [= <- <-]). apply map_end_ok in E4. subst es3.
    apply (named_ok _ _ _ test_modes_nodup) in Em. destruct Em as (w & -> & I). exists (Mapping [(nk, nv)]). cbn. rewrite <- !app_assoc. split; [reflexivity|].
    econstructor; eassumption.
  - intros (n & -> & H). destruct H as [k v w m Wk Wv I].
    assert (E : named test_modes (lit w) = Some m) by (apply (named_ok _ _ _ test_modes_nodup); eauto).
    exists tt, (events k ++ events v ++ YMapEnd :: r). split; [cbn; rewrite app_nil_r, <- !app_assoc; reflexivity|].
    apply bind_ok2. exists (lit "testmode"), (events v ++ YMapEnd :: r). split; [apply scalar_reads; exists k; auto|].
    rewrite (proj2 (str_eqb_eq _ _) eq_refl : str_eqb (lit "testmode") (lit "testmode") = true). cbn [negb].
    apply bind_ok2. exists (lit w), (YMapEnd :: r). split; [apply scalar_reads; exists v; auto|]. rewrite E. reflexivity.
Qed.

(** ** Expected failures *)
Lemma xfail_value_reads : preads xfail_value simple_xfail.
Proof.
  assert (W : forall v b, named xfail_words v = Some b <-> In v (if b then on_words else off_words)).
  { intros v b. rewrite named_ok by (unfold xfail_words; cbn [map fst]; nodup_words). unfold xfail_words, on_words, off_words. split.
    - intros (w & -> & [I|[I|[I|[I|[]]]]]); injection I as <- <-; cbn; auto.
    - destruct b; cbn [map In]; intros [<-|[<-|[]]]; eexists; (split; [reflexivity|]); cbn; auto. }
  intros es a r. unfold xfail_value. rewrite bind_ok2. split.
  - intros (v & es1 & E & H). apply scalar_reads in E. destruct E as (n & -> & T). exists n. split; [injection H as _ <-; reflexivity|].
    destruct (named xfail_words v) as [[]|] eqn:E; injection H as <- <-.
    + eapply sx_on; [exact T|]. exact (proj1 (W v true) E).
    + eapply sx_off; [exact T|]. exact (proj1 (W v false) E).
    + apply sx_reason; [exact T| |]; intros I; [apply (W v false) in I|apply (W v true) in I]; congruence.
  - intros (n & -> & H). destruct H as [n v T I|n v T I|n v T N1 N2]; exists v, r; (split; [apply scalar_reads; eauto|]).
    + apply (W v false) in I. rewrite I. reflexivity.
    + apply (W v true) in I. rewrite I. reflexivity.
    + destruct (named xfail_words v) as [b|] eqn:E; [|reflexivity]. apply W in E. destruct b; contradiction.
Qed.
Lemma simple_expected n x : simple_xfail n x -> is_expected x = true <-> x <> XSimple false.
Proof. intros []; cbn; split; congruence. Qed.
Lemma steps_directions l : forall ds ds',
  steps (fun ds kv ds' => exists d x, direction_word (fst kv) d /\ simple_xfail (snd kv) x /\ ds' = if is_expected x then d :: ds else ds) ds l ds' <->
  exists l1, failing_directions l l1 /\ ds' = rev l1 ++ ds.
Proof.
  induction l as [|[k v] l IH]; intros ds ds'; split.
  - intros H. inversion H; subst. exists []. split; [constructor|reflexivity].
  - intros (l1 & F & ->). inversion F; subst. constructor.
  - intros H. inversion H as [|? ? ? ? ? (d & x & D & X & ->) H']; subst. apply IH in H'. destruct H' as (l1 & F & ->).
    destruct (is_expected x) eqn:E.
    + exists (d :: l1). split; [|cbn; rewrite <- app_assoc; reflexivity]. eapply fd_on; [exact D|exact X| |exact F]. apply (simple_expected _ _ X), E.
    + exists l1. split; [|reflexivity]. eapply fd_off; [exact D| |exact F]. cbn in X. destruct X; cbn in E; try discriminate. eapply sx_off; eassumption.
  - intros (l1 & F & ->). inversion F as [|? ? d ? ds1 D X F'|? ? d x ? ds1 D X N F']; subst.
    + econstructor; [exists d, (XSimple false); cbn; eauto|]. apply IH. eauto.
    + econstructor; [exists d, x; split; [exact D|split; [exact X|reflexivity]]|]. apply (simple_expected _ _ X) in N. rewrite N. apply IH. exists ds1. cbn. rewrite <- app_assoc. auto.
Qed.
Lemma direction_named w d : named [("forward", Forward); ("backward", Backward)]%string w = Some d <->
  match d with Forward => w = lit "forward" | Backward => w = lit "backward" end.
Proof.
  rewrite named_ok by (cbn [map fst]; nodup_words). split.
  - intros (x & -> & [[= <- <-]|[[= <- <-]|[]]]); reflexivity.
  - destruct d; intros ->; eexists; (split; [reflexivity|]); cbn; auto.
Qed.
Lemma direction_word_ok k d : direction_word k d <-> text k (match d with Forward => lit "forward" | Backward => lit "backward" end).
Proof. split; [intros []; assumption|]. destruct d; intros T; constructor; exact T. Qed.
Lemma xfail_mapping_reads : preads xfail_mapping_value (fun n ds => exists l l1, n = Mapping l /\ failing_directions l l1 /\ ds = rev l1).
Proof.
  intros es a r. unfold xfail_mapping_value.
  refine (iff_trans (mapping_reads _ (fun ds kv ds' => exists d x, direction_word (fst kv) d /\ simple_xfail (snd kv) x /\ ds' = if is_expected x then d :: ds else ds) [] _ _ es a r) _); cycle 2.
  - split.
    + intros (n & -> & l & -> & S). apply steps_directions in S. destruct S as (q1 & F & ->). rewrite app_nil_r. exists (Mapping l). split; [reflexivity|]. eauto.
    + intros (n & -> & l & q1 & -> & F & ->). exists (Mapping l). split; [reflexivity|]. exists l. split; [reflexivity|]. apply steps_directions. exists q1. rewrite app_nil_r. auto.
  - clear es a r. intros q es q' r. rewrite bind_ok2. split.
    + intros (k & es1 & E & E'). apply bind_ok2 in E'. destruct E' as (x & es2 & E' & H). apply scalar_reads in E. apply xfail_value_reads in E'.
      destruct E as (nk & -> & Tk), E' as (nv & -> & Tv). destruct (named _ k) as [d|] eqn:Ed; [|discriminate]. injection H as <- <-.
      exists (nk, nv). unfold pair_events. cbn [fst snd]. rewrite <- app_assoc. split; [reflexivity|].
      exists d, x. split; [|split; [exact Tv|reflexivity]]. apply direction_named in Ed. apply direction_word_ok. destruct d; subst k; exact Tk.
    + intros ([nk nv] & -> & d & x & D & X & ->). cbn [fst snd] in D, X. unfold pair_events. cbn [fst snd]. rewrite <- app_assoc. apply direction_word_ok in D.
      eexists. exists (events nv ++ r). split; [apply scalar_reads; exists nk; split; [reflexivity|exact D]|].
      apply bind_ok2. exists x, r. split; [apply xfail_value_reads; eauto|].
      assert (E : named [("forward", Forward); ("backward", Backward)]%string match d with Forward => lit "forward" | Backward => lit "backward" end = Some d) by (apply direction_named; destruct d; reflexivity).
      rewrite E. reflexivity.
  - intros q x q' (d & y & D & _). apply direction_word_ok in D. eauto.
Qed.
Lemma y_xfail_reads : preads y_xfail xfail_is.
Proof.
  intros es a r. split.
  - unfold y_xfail. destruct es as [|[] es]; try discriminate.
    + intros E. apply xfail_value_reads in E. destruct E as (n & -> & X). exists n. split; [reflexivity|constructor; exact X].
    + rewrite bind_ok2. intros (l & es1 & E & [= <- <-]). apply xfail_mapping_reads in E. destruct E as (n & -> & l1 & l2 & -> & F & ->). exists (Mapping l1). split; [reflexivity|constructor; exact F].
  - intros (n & -> & H). destruct H as [n x X|l ds F].
    + assert (T : exists v, text n v) by (destruct X; eauto). destruct T as (v & b & ->). cbn [events app y_xfail]. apply xfail_value_reads. exists (Scalar b v). auto.
    + cbn [events app y_xfail]. apply bind_ok2. exists (rev ds), r. split; [|reflexivity]. apply xfail_mapping_reads. exists (Mapping l). split; [reflexivity|eauto].
Qed.
Lemma fails_in_ok x d : fails_in x d = true <-> marked x d.
Proof.
  destruct x as [b|v|l]; cbn; [tauto|split; auto|]. rewrite existsb_exists. split.
  - intros (d' & I & E). destruct d, d'; try discriminate; exact I.
  - intros I. exists d. split; [exact I|]. destruct d; reflexivity.
Qed.

(** ** Numbers *)
Lemma parse_u16_ok t v : parse_u16 t = Some v <-> (v <= 65535)%N /\ (decimal t v \/ exists t', t = 43%N :: t' /\ decimal t' v).
Proof.
  assert (D : forall l, (if is_empty l then None else if forallb is_ascii_digit l then
     let v := fold_left (fun acc c => acc * 10 + (c - 48))%N l 0%N in if N.leb v 65535 then Some v else None else None) = Some v <-> (v <= 65535)%N /\ decimal l v).
  { intros l. unfold decimal. destruct l as [|c l]; cbn [is_empty]; [split; [discriminate|intros (_ & H & _); destruct (H eq_refl)]|].
    remember (c :: l) as L eqn:EL. split.
    - destruct (forallb is_ascii_digit L) eqn:E; [|discriminate]. cbv zeta. destruct (N.leb _ _) eqn:B; [|discriminate]. intros [= <-].
      apply N.leb_le in B. split; [exact B|]. split; [subst; discriminate|]. split; [apply digits_ok, E|apply value_ok].
    - intros (B & _ & F & ->). apply digits_ok in F. rewrite F. cbv zeta. rewrite value_ok. apply N.leb_le in B. rewrite B. reflexivity. }
  unfold parse_u16. cbv zeta. rewrite D. destruct t as [|c r].
  - split; [tauto|]. intros (B & [H|(t' & H & _)]); [auto|discriminate].
  - destruct (N.eqb_spec c 43) as [E|E].
    + split; [intros (B & H); split; [exact B|right; exists r; subst; auto]|]. intros (B & [H|(t' & H & H')]).
      * destruct H as (_ & F & _). inversion F; subst. unfold digit10 in *. lia.
      * injection H as _ <-. auto.
    + split; [tauto|]. intros (B & [H|(t' & H & _)]); [auto|]. congruence.
Qed.
Lemma u16_reads : preads u16_value u16_is.
Proof.
  intros es a r. unfold u16_value, u16_is. rewrite bind_ok2. split.
  - intros (v & es1 & E & H). apply scalar_reads in E. destruct E as (n & -> & T). destruct (parse_u16 v) as [x|] eqn:P; [|discriminate]. injection H as <- <-.
    exists n. split; [reflexivity|]. apply parse_u16_ok in P. eauto.
  - intros (n & -> & t & T & P). apply parse_u16_ok in P. exists t, r. split; [apply scalar_reads; eauto|]. rewrite P. reflexivity.
Qed.
Lemma u16_text n v : u16_is n v -> exists t, text n t. Proof. intros (t & T & _). eauto. Qed.
Lemma pos_values_reads : preads pos_values (fun n l => exists ns, n = Sequence ns /\ Forall2 u16_is ns l).
Proof. apply (list_reads u16_value u16_is u16_reads). exact u16_text. Qed.
Lemma cursor_reads : preads y_cursor_position cursor_is.
Proof.
  assert (S : forall es a r, (ydo (n, es) <- u16_value es; YOk (Single n, es)) = YOk (a, r) <-> exists n v, es = events n ++ r /\ u16_is n v /\ a = Single v).
  { intros es a r. rewrite bind_ok2. split.
    - intros (v & es1 & E & [= <- <-]). apply u16_reads in E. destruct E as (n & -> & U). eauto.
    - intros (n & v & -> & U & ->). exists v, r. split; [apply u16_reads; eauto|reflexivity]. }
  intros es a r. split.
  - assert (G : (ydo (n, es) <- u16_value es; YOk (Single n, es)) = YOk (a, r) -> exists n, es = events n ++ r /\ cursor_is n a).
    { intros H. apply S in H. destruct H as (n & v & -> & U & ->). exists n. split; [reflexivity|constructor; exact U]. }
    unfold y_cursor_position. destruct es as [|[] es]; try exact G. clear G. rewrite bind_ok2.
    intros (u & es1 & [= <- <-] & E). apply bind_ok2 in E. destruct E as (v & es2 & E1 & E). apply bind_ok2 in E. destruct E as (w & es3 & E2 & E). apply bind_ok2 in E.
    destruct E as (u2 & es4 & E3 & [= <- <-]). apply seq_end_ok in E3. subst es3. apply u16_reads in E1, E2. destruct E1 as (n1 & -> & U1), E2 as (n2 & -> & U2).
    exists (Sequence [n1; n2]). cbn. rewrite app_nil_r, <- !app_assoc. split; [reflexivity|constructor; assumption].
  - intros (n & -> & H). destruct H as [n v U|n1 n2 v w U1 U2].
    + destruct (u16_text _ _ U) as (t & b & ->). cbn [events app y_cursor_position]. apply S. exists (Scalar b t), v. auto.
    + cbn [events flat_map y_cursor_position app]. apply bind_ok2. exists tt. eexists. split; [reflexivity|]. apply bind_ok2. exists v. eexists. split; [apply u16_reads; exists n1; split; [|exact U1]|].
      { rewrite app_nil_r, <- !app_assoc. reflexivity. }
      apply bind_ok2. exists w, (YSeqEnd :: r). split; [apply u16_reads; exists n2; auto|]. reflexivity.
Qed.

(** ** Modes *)
Lemma mode_value_reads : preads translation_mode_value translation_mode_is.
Proof.
  intros es a r. unfold translation_mode_value, translation_mode_is. rewrite bind_ok2. split.
  - intros (v & es1 & E & H). apply scalar_reads in E. destruct E as (n & -> & T). destruct (named mode_names v) as [m|] eqn:Em; [|discriminate]. injection H as <- <-.
    apply (named_ok _ _ _ mode_names_nodup) in Em. destruct Em as (w & -> & I). exists n. split; [reflexivity|]. exists w. auto.
  - intros (n & -> & w & T & I). exists (lit w), r. split; [apply scalar_reads; eauto|].
    assert (E : named mode_names (lit w) = Some a) by (apply (named_ok _ _ _ mode_names_nodup); eauto). rewrite E. reflexivity.
Qed.
Lemma modes_reads : preads translation_modes (fun n l => exists ns, n = Sequence ns /\ Forall2 translation_mode_is ns l).
Proof. apply (list_reads _ _ mode_value_reads). intros n a (w & T & _). eauto. Qed.

(** ** Emphasis *)
Lemma run_start_unique m s s' e : plus_run m s e -> plus_run m s' e -> s = s'.
Proof.
  intros (B & P & L & _) (B' & P' & L' & _). destruct (Nat.lt_trichotomy s s') as [Q|[Q|Q]]; [|exact Q|]; exfalso.
  - destruct s' as [|k]; [lia|]. apply (L' k eq_refl), P. lia.
  - destruct s as [|k]; [lia|]. apply (L k eq_refl), P'. lia.
Qed.
Lemma mask_spans_ok class mask : forall pre start,
  let full := pre ++ mask in
  match start with
  | Some s => s < length pre /\ (forall j, s <= j < length pre -> nth_error full j = Some 43%N) /\ (forall j, S j = s -> nth_error full j <> Some 43%N)
  | None => forall j, S j = length pre -> nth_error full j <> Some 43%N
  end ->
  (forall sp, In sp (mask_spans class mask (length pre) start) <-> exists s e, sp = mk_span class s e /\ plus_run full s e /\ length pre <= e) /\
  StronglySorted (fun a b => sp_end a < sp_start b) (mask_spans class mask (length pre) start) /\
  Forall (fun sp => match start with Some s => s | None => length pre end <= sp_start sp) (mask_spans class mask (length pre) start).
Proof.
  induction mask as [|c mask IH]; intros pre start full ST.
  - unfold full in *. rewrite app_nil_r in *. destruct start as [s|]; cbn [mask_spans].
    + destruct ST as (B & P & L).
      assert (R : plus_run pre s (length pre)).
      { split; [lia|]. split; [exact P|]. split; [exact L|]. rewrite (proj2 (nth_error_None _ _)) by lia. discriminate. }
      split; [|split; [repeat constructor|repeat constructor; cbn; lia]]. intros sp. split.
      * intros [<-|[]]. exists s, (length pre). split; [reflexivity|]. split; [exact R|lia].
      * intros (s' & e & -> & R' & Le). left. assert (e = length pre) as -> by (destruct R' as ((_ & B') & _); lia).
        rewrite (run_start_unique _ _ _ _ R R'). reflexivity.
    + split; [|split; constructor]. intros sp. split; [intros []|]. intros (s & e & -> & (B & P & _) & Le). assert (e = length pre) as -> by lia.
      destruct (length pre) as [|k] eqn:Ek; [lia|]. exfalso. apply (ST k eq_refl), P. lia.
  - assert (EQ : full = (pre ++ [c]) ++ mask) by (unfold full; rewrite <- app_assoc; reflexivity).
    assert (LEN : length (pre ++ [c]) = S (length pre)) by (rewrite app_length; cbn; lia).
    assert (AT : nth_error full (length pre) = Some c) by (unfold full; rewrite nth_error_app2, Nat.sub_diag by lia; reflexivity).
    specialize (IH (pre ++ [c])). cbv zeta in IH. rewrite <- EQ, LEN in IH.
    cbn [mask_spans]. destruct (N.eqb_spec c 43) as [->|NP].
    + destruct start as [s|].
      * destruct ST as (B & P & L). destruct (IH (Some s)) as (I1 & I2 & I3).
        { split; [lia|]. split; [|exact L]. intros j J. destruct (Nat.eq_dec j (length pre)) as [->|]; [exact AT|apply P; lia]. }
        split; [|split; [exact I2|exact I3]]. intros sp. rewrite I1. split; intros (s' & e & E & R & Le); exists s', e; (split; [exact E|split; [exact R|]]); [lia|].
        destruct (Nat.eq_dec e (length pre)) as [->|]; [|lia]. destruct R as (_ & _ & _ & NE). destruct NE. exact AT.
      * destruct (IH (Some (length pre))) as (I1 & I2 & I3).
        { split; [lia|]. split; [intros j J; assert (j = length pre) as -> by lia; exact AT|exact ST]. }
        split; [|split; [exact I2|exact I3]]. intros sp. rewrite I1. split; intros (s' & e & E & R & Le); exists s', e; (split; [exact E|split; [exact R|]]); [lia|].
        destruct (Nat.eq_dec e (length pre)) as [->|]; [|lia]. destruct R as (_ & _ & _ & NE). destruct NE. exact AT.
    + assert (NN : forall j, S j = S (length pre) -> nth_error full j <> Some 43%N).
      { intros j [= ->]. rewrite AT. intros [= ?]. auto. }
      destruct (IH None NN) as (I1 & I2 & I3). destruct start as [s|].
      * destruct ST as (B & P & L).
        assert (R0 : plus_run full s (length pre)).
        { split; [unfold full; rewrite app_length; cbn; lia|]. split; [exact P|]. split; [exact L|]. rewrite AT. intros [= ?]. auto. }
        split; [|split].
        -- intros sp. cbn [In]. rewrite I1. split.
           ++ intros [<-|(s' & e & E & R & Le)]; [exists s, (length pre)|exists s', e]; (split; [auto|split; [assumption|lia]]).
           ++ intros (s' & e & E & R & Le). destruct (Nat.eq_dec e (length pre)) as [->|].
              ** left. rewrite E, (run_start_unique _ _ _ _ R0 R). reflexivity.
              ** right. exists s', e. split; [exact E|split; [exact R|lia]].
        -- constructor; [exact I2|]. eapply Forall_impl; [|exact I3]. cbn. intros. lia.
        -- constructor; [cbn; lia|]. eapply Forall_impl; [|exact I3]. cbn. intros. lia.
      * split; [|split; [exact I2|eapply Forall_impl; [|exact I3]; cbn; intros; lia]].
        intros sp. rewrite I1. split; intros (s' & e & E & R & Le); exists s', e; (split; [exact E|split; [exact R|]]); [lia|].
        destruct (Nat.eq_dec e (length pre)) as [->|]; [|lia]. destruct R as (B & P & _). exfalso.
        destruct (length pre) as [|k] eqn:Ek; [lia|]. apply (ST k eq_refl), P. lia.
Qed.
Lemma mask_ok class mask : mask_is class mask (mask_spans class mask 0 None).
Proof.
  destruct (mask_spans_ok class mask [] None) as (I1 & I2 & _); [discriminate|]. cbn [length app] in *. split; [|exact I2].
  intros sp. rewrite I1. split; intros (s & e & E & R); exists s, e; [tauto|]. split; [exact E|split; [exact R|lia]].
Qed.
Lemma sorted_unique {A} (R : A -> A -> Prop) : (forall a, ~ R a a) -> (forall a b, R a b -> ~ R b a) -> forall l l' : list A,
  StronglySorted R l -> StronglySorted R l' -> (forall x, In x l <-> In x l') -> l = l'.
Proof.
  intros IR AS l. induction l as [|a l IH]; intros [|a' l'] S S' E; [reflexivity|destruct (proj2 (E a') (or_introl eq_refl))|destruct (proj1 (E a) (or_introl eq_refl))|].
  inversion S as [|? ? S1 F1]; inversion S' as [|? ? S1' F1']; subst. rewrite Forall_forall in F1, F1'.
  assert (a = a') as <-.
  { destruct (proj1 (E a) (or_introl eq_refl)) as [H|H]; [auto|]. destruct (proj2 (E a') (or_introl eq_refl)) as [H'|H']; [auto|].
    exfalso. apply (AS a a'); auto. }
  f_equal. apply IH; [exact S1|exact S1'|]. intros x. split; intros I.
  - destruct (proj1 (E x) (or_intror I)) as [<-|H]; [destruct (IR _ (F1 _ I))|exact H].
  - destruct (proj2 (E x) (or_intror I)) as [<-|H]; [destruct (IR _ (F1' _ I))|exact H].
Qed.
Lemma mask_unique class mask l l' : mask_is class mask l -> mask_is class mask l' -> l = l'.
Proof.
  intros [I1 S1] [I2 S2].
  assert (G : forall l, (forall sp, In sp l -> exists s e, sp = mk_span class s e /\ plus_run mask s e) -> StronglySorted (fun a b => sp_end a < sp_start b) l ->
    StronglySorted (fun a b => sp_start a < sp_end a /\ sp_end a < sp_start b /\ sp_start b < sp_end b) l).
  { clear. intros l H S. induction S as [|a l S IH F]; [constructor|]. constructor; [apply IH; intros; apply H; right; assumption|].
    apply Forall_forall. intros x Ix. rewrite Forall_forall in F. specialize (F _ Ix).
    destruct (H a (or_introl eq_refl)) as (s & e & -> & (B & _)). destruct (H x (or_intror Ix)) as (s' & e' & -> & (B' & _)). cbn in *. lia. }
  apply (sorted_unique (fun a b => sp_start a < sp_end a /\ sp_end a < sp_start b /\ sp_start b < sp_end b)).
  - intros a. lia.
  - intros a b. lia.
  - apply G; [apply I1|exact S1].
  - apply G; [apply I2|exact S2].
  - intros x. rewrite I1, I2. tauto.
Qed.
Lemma steps_typeform l : forall sp sp',
  steps (fun sp kv sp' => exists class mask, text (fst kv) class /\ text (snd kv) mask /\ sp' = sp ++ mask_spans class mask 0 None) sp l sp' <->
  exists sp1, typeform_is l sp1 /\ sp' = sp ++ sp1.
Proof.
  induction l as [|[k v] l IH]; intros sp sp'; split.
  - intros H. inversion H; subst. exists []. rewrite app_nil_r. split; [constructor|reflexivity].
  - intros (l1 & F & ->). inversion F; subst. rewrite app_nil_r. constructor.
  - intros H. inversion H as [|? ? ? ? ? (class & mask & T1 & T2 & ->) H']; subst. apply IH in H'. destruct H' as (l1 & F & ->).
    eexists. rewrite <- app_assoc. split; [|reflexivity]. econstructor; [exact T1|exact T2|apply mask_ok|exact F].
  - intros (l1 & F & ->). inversion F as [|? ? class mask spans ? more T1 T2 M F']; subst. rewrite (mask_unique _ _ _ _ M (mask_ok class mask)).
    econstructor; [exists class, mask; cbn [fst snd]; eauto|]. apply IH. exists more. rewrite <- app_assoc. auto.
Qed.
Lemma emphasis_reads : preads emphasis_spans_value (fun n sp => exists l, n = Mapping l /\ typeform_is l sp).
Proof.
  intros es a r. unfold emphasis_spans_value.
  refine (iff_trans (mapping_reads _ (fun sp kv sp' => exists class mask, text (fst kv) class /\ text (snd kv) mask /\ sp' = sp ++ mask_spans class mask 0 None) [] _ _ es a r) _); cycle 2.
  - split; intros (n & -> & l & -> & S); exists (Mapping l); (split; [reflexivity|]); exists l; (split; [reflexivity|]).
    + apply steps_typeform in S. destruct S as (q1 & F & ->). exact F.
    + apply steps_typeform. eauto.
  - clear es a r. intros q es q' r. rewrite bind_ok2. split.
    + intros (k & es1 & E & E'). apply bind_ok2 in E'. destruct E' as (x & es2 & E' & [= <- <-]). apply scalar_reads in E, E'.
      destruct E as (nk & -> & Tk), E' as (nv & -> & Tv).
      exists (nk, nv). unfold pair_events. cbn [fst snd]. rewrite <- app_assoc. split; [reflexivity|]. exists k, x. auto.
    + intros ([nk nv] & -> & class & mask & T1 & T2 & ->). cbn [fst snd] in T1, T2. unfold pair_events. cbn [fst snd]. rewrite <- app_assoc.
      exists class, (events nv ++ r). split; [apply scalar_reads; eauto|]. apply bind_ok2. exists mask, r. split; [apply scalar_reads; eauto|reflexivity].
  - intros q x q' (class & mask & T & _). eauto.
Qed.

(** ** Tests *)
Lemma unescaped_ok s t : unescaped s = YOk t <-> Escaped false true s t.
Proof.
  unfold unescaped. rewrite <- (unescape_spec EscDefault). split.
  - destruct (unescape EscDefault s) as [t' r| |] eqn:E; try discriminate. intros [= <-]. pose proof (unescape_rest _ _ _ _ E) as ->. reflexivity.
  - intros ->. reflexivity.
Qed.
Lemma y_text_reads : preads y_text escaped_text.
Proof.
  intros es a r. unfold y_text, escaped_text. rewrite bind_ok2. split.
  - intros (v & es1 & E & H). apply bind_ok in H. destruct H as (t & U & [= <- <-]). apply scalar_reads in E. destruct E as (n & -> & T). apply unescaped_ok in U. exists n. eauto.
  - intros (n & -> & v & T & U). exists v, r. split; [apply scalar_reads; eauto|]. apply bind_ok. exists a. apply unescaped_ok in U. auto.
Qed.
Definition set (t : test) (s : setting) : test :=
  let '(mk_test i e x em ee ip op cp ms mo ri) := t in
  match s with
  | SXfail x => mk_test i e x em ee ip op cp ms mo ri
  | STypeform em => mk_test i e x em ee ip op cp ms mo ri
  | SExpectedTypeform ee => mk_test i e x em ee ip op cp ms mo ri
  | SInputPos ip => mk_test i e x em ee ip op cp ms mo ri
  | SOutputPos op => mk_test i e x em ee ip op cp ms mo ri
  | SCursorPos p => mk_test i e x em ee ip op (Some p) ms mo ri
  | SMode ms => mk_test i e x em ee ip op cp ms mo ri
  | SMaxOutputLength n => mk_test i e x em ee ip op cp ms (Some n) ri
  | SRealInputLength n => mk_test i e x em ee ip op cp ms mo (Some n)
  end.
Lemma word_is k w v : word w k -> text k v -> v = lit w.
Proof. intros [b ->] [b' [= _ E]]. auto. Qed.
(** one branch of a [match] on a key *)
Ltac key K :=
  match goal with H : (if str_eqb ?k (lit ?w) then _ else _) = _ |- _ =>
    destruct (str_eqb k (lit w)) eqn:K; [apply str_eqb_eq in K; subst k|clear K] end.
Ltac words := repeat match goal with |- context [str_eqb (lit ?a) (lit ?b)] =>
  let v := eval vm_compute in (str_eqb (lit a) (lit b)) in change (str_eqb (lit a) (lit b)) with v end; cbv iota.
Lemma setting_reads t es t' r : test_option t es = YOk (t', r) <-> exists kv, es = pair_events kv ++ r /\ exists s, setting_is kv s /\ t' = set t s.
Proof.
  destruct t as [i e x em ee ip op cp ms mo ri]. unfold test_option. rewrite bind_ok2. split.
  - intros (k & es1 & E & H). apply scalar_reads in E. destruct E as (nk & -> & Tk).
    key K0; [|key K0; [|key K0; [|key K0; [|key K0; [|key K0; [|key K0; [|key K0; [|key K0; [|discriminate]]]]]]]]]; apply bind_ok2 in H; destruct H as (v & es2 & H & [= <- <-]).
    + apply y_xfail_reads in H. destruct H as (n & -> & X). exists (nk, n). unfold pair_events. cbn [fst snd]. rewrite <- app_assoc. split; [reflexivity|]. exists (SXfail v). split; [constructor; assumption|reflexivity].
    + apply emphasis_reads in H. destruct H as (n & -> & l & -> & X). exists (nk, Mapping l). unfold pair_events. cbn [fst snd]. rewrite <- app_assoc. split; [reflexivity|]. exists (STypeform v). split; [constructor; assumption|reflexivity].
    + apply emphasis_reads in H. destruct H as (n & -> & l & -> & X). exists (nk, Mapping l). unfold pair_events. cbn [fst snd]. rewrite <- app_assoc. split; [reflexivity|]. exists (SExpectedTypeform v). split; [constructor; assumption|reflexivity].
    + apply pos_values_reads in H. destruct H as (n & -> & l & -> & X). exists (nk, Sequence l). unfold pair_events. cbn [fst snd]. rewrite <- app_assoc. split; [reflexivity|]. exists (SInputPos v). split; [constructor; assumption|reflexivity].
    + apply pos_values_reads in H. destruct H as (n & -> & l & -> & X). exists (nk, Sequence l). unfold pair_events. cbn [fst snd]. rewrite <- app_assoc. split; [reflexivity|]. exists (SOutputPos v). split; [constructor; assumption|reflexivity].
    + apply cursor_reads in H. destruct H as (n & -> & X). exists (nk, n). unfold pair_events. cbn [fst snd]. rewrite <- app_assoc. split; [reflexivity|]. exists (SCursorPos v). split; [constructor; assumption|reflexivity].
    + apply modes_reads in H. destruct H as (n & -> & l & -> & X). exists (nk, Sequence l). unfold pair_events. cbn [fst snd]. rewrite <- app_assoc. split; [reflexivity|]. exists (SMode v). split; [constructor; assumption|reflexivity].
    + apply u16_reads in H. destruct H as (n & -> & X). exists (nk, n). unfold pair_events. cbn [fst snd]. rewrite <- app_assoc. split; [reflexivity|]. exists (SMaxOutputLength v). split; [constructor; assumption|reflexivity].
    + apply u16_reads in H. destruct H as (n & -> & X). exists (nk, n). unfold pair_events. cbn [fst snd]. rewrite <- app_assoc. split; [reflexivity|]. exists (SRealInputLength v). split; [constructor; assumption|reflexivity].
  - intros (kv & -> & s & H & ->). unfold pair_events.
    destruct H as [k v y W X|k l y W X|k l y W X|k l y W X|k l y W X|k v y W X|k l y W X|k v y W X|k v y W X]; cbn [fst snd]; rewrite <- app_assoc;
      (eexists; eexists; split; [apply scalar_reads; exists k; split; [reflexivity|exact W]|]).
    + words. apply bind_ok2. exists y, r. split; [apply y_xfail_reads; eauto|reflexivity].
    + words. apply bind_ok2. exists y, r. split; [apply emphasis_reads; eauto|reflexivity].
    + words. apply bind_ok2. exists y, r. split; [apply emphasis_reads; eauto|reflexivity].
    + words. apply bind_ok2. exists y, r. split; [apply pos_values_reads; eauto|reflexivity].
    + words. apply bind_ok2. exists y, r. split; [apply pos_values_reads; eauto|reflexivity].
    + words. apply bind_ok2. exists y, r. split; [apply cursor_reads; eauto|reflexivity].
    + words. apply bind_ok2. exists y, r. split; [apply modes_reads; eauto|reflexivity].
    + words. apply bind_ok2. exists y, r. split; [apply u16_reads; eauto|reflexivity].
    + words. apply bind_ok2. exists y, r. split; [apply u16_reads; eauto|reflexivity].
Qed.
Lemma steps_settings l : forall t t', steps (fun t kv t' => exists s, setting_is kv s /\ t' = set t s) t l t' <->
  exists settings, Forall2 setting_is l settings /\ t' = fold_left set settings t.
Proof.
  induction l as [|x l IH]; intros t t'; split.
  - intros H. inversion H; subst. exists []. auto.
  - intros (q1 & F & ->). inversion F; subst. constructor.
  - intros H. inversion H as [|? ? ? ? ? (s & B & ->) H']; subst. apply IH in H'. destruct H' as (q1 & F & ->). exists (s :: q1). auto.
  - intros (q1 & F & ->). inversion F as [|? s ? q2 B F']; subst. econstructor; [exists s; eauto|]. apply IH. exists q2. auto.
Qed.
Lemma set_latest settings : forall i e x em ee ip op cp ms mo ri,
  fold_left set settings (mk_test i e x em ee ip op cp ms mo ri) =
  mk_test i e (latest a_xfail x settings) (latest a_typeform em settings) (latest an_expected_typeform ee settings)
    (latest an_input_pos ip settings) (latest an_output_pos op settings) (latest a_cursor_pos cp settings) (latest a_mode ms settings)
    (latest a_max mo settings) (latest a_real ri settings).
Proof. induction settings as [|s settings IH]; intros; [reflexivity|]. destruct s; cbn [fold_left set latest a_xfail a_typeform an_expected_typeform an_input_pos an_output_pos a_cursor_pos a_mode a_max a_real]; apply IH. Qed.
Definition read_settings (i e : str) : yp test := fun es =>
  ydo (_, es) <- mapping_start es; ydo (t, es) <- while_scalar test_option (plain_test i e) es; ydo (_, es) <- mapping_end es; YOk (t, es).
Lemma settings_reads i e : preads (read_settings i e) (fun n t => exists l settings, n = Mapping l /\ Forall2 setting_is l settings /\ t = fold_left set settings (plain_test i e)).
Proof.
  intros es a r. unfold read_settings.
  refine (iff_trans (mapping_reads _ (fun t kv t' => exists s, setting_is kv s /\ t' = set t s) (plain_test i e) _ _ es a r) _); cycle 2.
  - split.
    + intros (n & -> & l & -> & S). apply steps_settings in S. destruct S as (q1 & F & ->). exists (Mapping l). split; [reflexivity|]. eauto.
    + intros (n & -> & l & q1 & -> & F & ->). exists (Mapping l). split; [reflexivity|]. exists l. split; [reflexivity|]. apply steps_settings. eauto.
  - intros t es' t' r'. apply setting_reads.
  - intros t x t' (s & H & _). destruct H; cbn [fst]; match goal with W : word ?w ?k |- exists v, text ?k v => exists (lit w); exact W end.
Qed.
Definition read_options (i e : str) : yp test := fun es =>
  match es with YMapStart :: _ => read_settings i e es | _ => YOk (plain_test i e, es) end.
(** what may follow the texts of a test *)
Definition closed (r : list yevent) : Prop := match r with YScalar _ _ :: _ | YMapStart :: _ => False | _ => True end.
Lemma options_reads i e es t r : closed r -> (read_options i e es = YOk (t, r) <->
  exists options settings, es = flat_map events options ++ r /\ t = fold_left set settings (plain_test i e) /\
    (options = [] /\ settings = [] \/ (exists l, options = [Mapping l] /\ Forall2 setting_is l settings))).
Proof.
  intros C. unfold read_options. split.
  - destruct es as [|y es]; [intros [= <- <-]; exists [], []; auto|]. destruct y; try (intros [= <- <-]; exists [], []; auto; fail).
    intros E. apply settings_reads in E. destruct E as (n & -> & l & settings & -> & F & ->). exists [Mapping l], settings. cbn [flat_map]. rewrite app_nil_r. split; [reflexivity|]. split; [reflexivity|]. right. eauto.
  - intros (options & settings & -> & -> & [[-> ->]|(l & -> & F)]).
    + cbn. destruct r as [|[] r]; try reflexivity. destruct C.
    + cbn [flat_map]. rewrite app_nil_r. assert (R : read_settings i e (events (Mapping l) ++ r) = YOk (fold_left set settings (plain_test i e), r)); [|exact R].
      apply settings_reads. exists (Mapping l). split; [reflexivity|eauto].
Qed.
Lemma y_test_shape es : y_test es =
  ydo (_, es) <- sequence_start es; ydo (input, es) <- y_text es; ydo (expected, es) <- y_text es;
  ydo (input, expected, es) <- match es with YScalar _ _ :: _ => ydo (e, es) <- y_text es; YOk (expected, e, es) | _ => YOk (input, expected, es) end;
  ydo (t, es) <- read_options input expected es;
  ydo (_, es) <- sequence_end es; YOk (t, es).
Proof. reflexivity. Qed.
Lemma bind_ok3 {A B C} (m : yres (A * B * list yevent)) (f : A -> B -> list yevent -> yres C) b :
  (ydo (x, y, z) <- m; f x y z) = YOk b <-> exists x y z, m = YOk (x, y, z) /\ f x y z = YOk b.
Proof.
  rewrite bind_ok. split.
  - intros ([[x y] z] & H & E). eauto.
  - intros (x & y & z & H & E). exists (x, y, z). auto.
Qed.
Lemma y_test_reads : preads y_test test_is.
Proof.
  intros es a r. rewrite y_test_shape, bind_ok2. split.
  - intros (u & es1 & E1 & E). apply seq_start_ok in E1. subst es. apply bind_ok2 in E. destruct E as (t1 & es2 & E1 & E). apply bind_ok2 in E. destruct E as (t2 & es3 & E2 & E).
    apply y_text_reads in E1, E2. destruct E1 as (n1 & -> & T1), E2 as (n2 & -> & T2). apply bind_ok3 in E. destruct E as (input & expected & es4 & E3 & E).
    apply bind_ok2 in E. destruct E as (t & es5 & E4 & E). apply bind_ok2 in E. destruct E as (u2 & es6 & E5 & [= <- <-]). apply seq_end_ok in E5. subst es5.
    apply options_reads in E4; [|exact I]. destruct E4 as (options & settings & -> & -> & O).
    assert (X : exists scalars texts, Forall2 escaped_text scalars texts /\ (texts = [input; expected] \/ (exists d, texts = [d; input; expected])) /\
      events n1 ++ events n2 ++ es3 = flat_map events scalars ++ flat_map events options ++ YSeqEnd :: es6).
    { assert (D : (exists e es', y_text es3 = YOk (e, es') /\ input = t2 /\ expected = e /\ es' = flat_map events options ++ YSeqEnd :: es6) \/
                  (input = t1 /\ expected = t2 /\ es3 = flat_map events options ++ YSeqEnd :: es6)).
      { destruct es3 as [|y es3]; [injection E3 as <- <- <-; right; auto|]. destruct y; try (injection E3 as <- <- <-; right; auto; fail).
        apply bind_ok2 in E3. destruct E3 as (e & es' & E3 & [= <- <- ->]). left. eauto 6. }
      destruct D as [(e & es' & E & -> & -> & ->)|(-> & -> & ->)].
      - apply y_text_reads in E. destruct E as (n3 & -> & T3). exists [n1; n2; n3], [t1; t2; e]. split; [auto|]. split; [eauto|]. cbn [flat_map]. rewrite app_nil_r, <- !app_assoc. reflexivity.
      - exists [n1; n2], [t1; t2]. split; [auto|]. split; [eauto|]. cbn [flat_map]. rewrite app_nil_r, <- !app_assoc. reflexivity. }
    destruct X as (scalars & texts & F & H & EQ). exists (Sequence (scalars ++ options)). split.
    + cbn [events]. rewrite EQ, flat_map_app, <- app_comm_cons, <- !app_assoc. reflexivity.
    + unfold plain_test. rewrite set_latest. eapply te_test; eassumption.
  - intros (n & -> & H). destruct H as [scalars texts input expected options settings F H O].
    exists tt, (flat_map events scalars ++ flat_map events options ++ YSeqEnd :: r). split.
    { cbn [events sequence_start app]. rewrite flat_map_app, <- !app_assoc. reflexivity. }
    assert (OR : read_options input expected (flat_map events options ++ YSeqEnd :: r) = YOk (fold_left set settings (plain_test input expected), YSeqEnd :: r)).
    { apply options_reads; [exact I|]. exists options, settings. auto. }
    unfold plain_test in OR. rewrite set_latest in OR.
    destruct H as [->|(d & ->)].
    + inversion F as [|n1 ? l1 ? T1 F1]; subst. inversion F1 as [|n2 ? l2 ? T2 F2]; subst. inversion F2; subst. cbn [flat_map]. rewrite app_nil_r, <- !app_assoc.
      apply bind_ok2. exists input. eexists. split; [apply y_text_reads; eauto|]. apply bind_ok2. exists expected. eexists. split; [apply y_text_reads; eauto|].
      apply bind_ok3. exists input, expected, (flat_map events options ++ YSeqEnd :: r). split.
      * destruct O as [[-> ->]|(l & -> & _)]; reflexivity.
      * apply bind_ok2. do 2 eexists. split; [exact OR|]. reflexivity.
    + inversion F as [|n1 ? l1 ? T1 F1]; subst. inversion F1 as [|n2 ? l2 ? T2 F2]; subst. inversion F2 as [|n3 ? l3 ? T3 F3]; subst. inversion F3; subst. cbn [flat_map]. rewrite app_nil_r, <- !app_assoc.
      apply bind_ok2. exists d. eexists. split; [apply y_text_reads; eauto|]. apply bind_ok2. exists input. eexists. split; [apply y_text_reads; eauto|].
      apply bind_ok3. exists input, expected, (flat_map events options ++ YSeqEnd :: r). split.
      * destruct T3 as (v & [b ->] & U). cbn [events app]. apply bind_ok2. exists expected. eexists. split; [|reflexivity]. apply y_text_reads. exists (Scalar b v). split; [reflexivity|]. exists v. split; [exists b; reflexivity|exact U].
      * apply bind_ok2. do 2 eexists. split; [exact OR|]. reflexivity.
Qed.
Lemma test_head n t : test_is n t -> exists es, events n = YSeqStart :: es.
Proof. intros []. cbn. eauto. Qed.
Lemma tests_loop_ok : forall fuel l es l' r, (match r with YSeqStart :: _ => False | _ => True end) ->
  (tests_loop fuel l es = YOk (l', r) <-> exists ns ts, es = flat_map events ns ++ r /\ length ns <= fuel /\ Forall2 test_is ns ts /\ l' = l ++ ts).
Proof.
  induction fuel as [|fuel IH]; intros l es l' r N.
  - split.
    + destruct es as [|y es]; [|destruct y; try discriminate]; cbn [tests_loop]; intros [= <- <-]; exists [], []; cbn; rewrite app_nil_r; auto 8 with arith.
    + intros ([|n ns] & ts & -> & L & F & ->); [|cbn in L; lia]. inversion F; subst. rewrite app_nil_r. cbn. destruct r as [|[] r]; try reflexivity. destruct N.
  - assert (D : (exists es1, es = YSeqStart :: es1) \/ tests_loop (S fuel) l es = YOk (l, es)) by (destruct es as [|[] es]; eauto).
    destruct D as [(es1 & ->)|D].
    + cbn [tests_loop]. rewrite bind_ok2. split.
      * intros (t & es2 & E1 & E2). apply (IH _ _ _ _ N) in E2. destruct E2 as (ns & ts & -> & L & F & ->). apply y_test_reads in E1. destruct E1 as (n & E1 & T).
        exists (n :: ns), (t :: ts). cbn. rewrite E1, <- !app_assoc. split; [reflexivity|]. split; [lia|]. auto.
      * intros ([|n ns] & ts & E & L & F & ->); [cbn in E; subst r; destruct N|]. inversion F as [|? t ? ts' T F']; subst. cbn in E. rewrite <- app_assoc in E.
        exists t, (flat_map events ns ++ r). split; [apply y_test_reads; eauto|]. apply IH; [exact N|]. exists ns, ts'. rewrite <- app_assoc. cbn in L. split; [reflexivity|]. split; [lia|]. auto.
    + rewrite D. split.
      * intros [= <- <-]. exists [], []. cbn. rewrite app_nil_r. split; [reflexivity|]. split; [lia|auto].
      * intros ([|n ns] & ts & -> & L & F & ->); inversion F as [|? t ? ts' T F']; subst; [rewrite app_nil_r; reflexivity|].
        exfalso. destruct (test_head _ _ T) as (es1 & Ev). cbn [flat_map] in D. rewrite Ev in D. cbn [app tests_loop] in D.
        apply bind_ok2 in D. destruct D as (t1 & r1 & D1 & D2). apply y_test_reads in D1. destruct D1 as (n1 & D1 & _).
        apply (f_equal (@length _)) in D1. rewrite app_length in D1.
        assert (G : forall f l es l' r, tests_loop f l es = YOk (l', r) -> length r <= length es).
        { clear. induction f as [|f IH]; intros l es l' r.
          - destruct es as [|y es]; [|destruct y; try discriminate]; cbn [tests_loop]; intros [= <- <-]; lia.
          - assert (D : (exists es1, es = YSeqStart :: es1) \/ tests_loop (S f) l es = YOk (l, es)) by (destruct es as [|[] es]; eauto).
            destruct D as [(es1 & ->)|D]; [|rewrite D; intros [= <- <-]; lia]. cbn [tests_loop]. rewrite bind_ok2. intros (t & es2 & E1 & E2). apply IH in E2.
            apply y_test_reads in E1. destruct E1 as (n & E1 & _). rewrite E1, app_length. lia. }
        apply G in D2. assert (1 <= length (events n1)) by (destruct n1; cbn; lia). cbn [length] in D1, D2. rewrite D1 in D2. lia.
Qed.
Lemma y_tests_reads : preads y_tests (fun n ts => exists ns, n = Sequence ns /\ Forall2 test_is ns ts).
Proof.
  intros es a r. unfold y_tests. rewrite bind_ok2. split.
  - intros (u & es1 & E1 & E). apply seq_start_ok in E1. subst es. apply bind_ok2 in E. destruct E as (l & es2 & E1 & E). apply bind_ok2 in E. destruct E as (u2 & es3 & E2 & [= <- <-]).
    apply seq_end_ok in E2. subst es2. apply tests_loop_ok in E1; [|exact I]. destruct E1 as (ns & ts & -> & _ & F & ->). exists (Sequence ns). cbn. rewrite <- app_assoc. split; [reflexivity|eauto].
  - intros (n & -> & ns & -> & F). exists tt, (flat_map events ns ++ YSeqEnd :: r). split; [cbn; rewrite <- app_assoc; reflexivity|].
    apply bind_ok2. exists a, (YSeqEnd :: r). split; [|reflexivity]. apply tests_loop_ok; [exact I|]. exists ns, a. split; [reflexivity|]. split; [|auto].
    rewrite app_length. clear -F. induction F as [|n t ns ts T F IH]; [cbn; lia|]. destruct (test_head _ _ T) as (es & E). cbn [flat_map length]. rewrite app_length, E. cbn [length] in *. lia.
Qed.

(** ** Running *)
Section Run.
Variable ws : char -> bool.
Variable is_alphabetic : char -> bool.
Variable lower upper : char -> list char.
Variable long_sort : list event -> res (list event).
Variable compat forward_only : bool.
Variable order1 order2 : list str -> list str.
Variable fs : file_system.
Variable trim : str -> str.
Variable is_utf8_name is_latin1_name : str -> bool.
Variable parse_usize : str -> option nat.
Notation check_test := (check_test lower upper long_sort).
Notation translates := (translates lower upper long_sort).
Lemma check_test_ok stps dt d t res : check_test stps dt d t = Ok res <->
  exists actual, translates stps (display_translate dt) d t actual /\ verdict t d actual res.
Proof.
  unfold YamlModel.check_test, YamlSpec.translates. cbv zeta. change (with_emphasis (with_modes options_default (t_modes t)) (t_emphasis t)) with (mk_options (t_modes t) (t_emphasis t) None).
  assert (V : forall actual, Ok (if str_eqb actual (t_expected t)
      then if negb (fails_in (t_xfail t) d) then Success else UnexpectedSuccess (t_input t) d
      else if fails_in (t_xfail t) d then ExpectedFailure (t_input t) (t_expected t) actual d
           else Failure (t_input t) (t_expected t) actual d) = Ok res <-> verdict t d actual res).
  { intros actual. pose proof (fails_in_ok (t_xfail t) d) as M. destruct (str_eqb actual (t_expected t)) eqn:E; [apply str_eqb_eq in E|apply eqb_false in E];
      (destruct (fails_in (t_xfail t) d); cbn [negb]; [assert (MK : marked (t_xfail t) d) by (apply M; reflexivity)|assert (MK : ~ marked (t_xfail t) d) by (intros X; apply M in X; discriminate)]);
      (split; [intros [= <-]; constructor; assumption|intros []; try reflexivity; contradiction]). }
  destruct d.
  - destruct (pipeline_translate_with _ _ _ _ _ _) as [s| |]; cbn [bind]; [rewrite V|split; [discriminate|intros (a & (s & Ex & _) & _); discriminate Ex]..].
    split; [intros H; exists (display_translate dt s); split; [exists s; auto|exact H]|]. intros (a & (s' & Es & ->) & X). injection Es as <-. exact X.
  - destruct (pipeline_translate_with _ _ _ _ _ _) as [s| |]; cbn [bind]; [rewrite V|split; [discriminate|intros (a & Ex & _); discriminate Ex]..].
    split; [eauto|]. intros (a & Es & X). injection Es as <-. exact X.
Qed.
Lemma check_tests_ok stps dt d l : forall rs, check_tests lower upper long_sort stps dt d l = YOk rs <->
  Forall2 (fun t r => exists actual, translates stps (display_translate dt) d t actual /\ verdict t d actual r) l rs.
Proof.
  induction l as [|t l IH]; intros rs; cbn [check_tests].
  - split; [intros [= <-]; constructor|]. intros F. inversion F. reflexivity.
  - split.
    + destruct (check_test stps dt d t) as [a| |] eqn:E; try discriminate. rewrite bind_ok. intros (rs' & E' & [= <-]). constructor; [apply check_test_ok, E|apply IH, E'].
    + intros F. inversion F as [|? a ? rs' X F']; subst. apply check_test_ok in X. rewrite X. apply bind_ok. exists rs'. split; [apply IH, F'|reflexivity].
Qed.
Lemma loaded_ok o rules : loaded o = YOk rules <-> o = Some (inl rules).
Proof. destruct o as [[l|e]|]; cbn; split; intros X; try discriminate X; injection X as <-; reflexivity. Qed.
Notation table_results := (table_results ws is_alphabetic lower upper long_sort compat order1 order2 fs trim is_utf8_name is_latin1_name parse_usize).
Notation check_tables := (check_tables ws is_alphabetic lower upper long_sort compat order1 order2 fs trim is_utf8_name is_latin1_name parse_usize).
Notation translation_table := (translation_table ws is_alphabetic compat order1 order2 fs trim is_utf8_name is_latin1_name parse_usize).
Notation compiled := (compiled is_alphabetic compat order1 order2 fs trim is_utf8_name is_latin1_name parse_usize).
Lemma translation_table_ok s d stps : translation_table s d = YOk stps <-> exists rules, table_rules ws fs s rules /\ compiled rules d = Built stps.
Proof.
  unfold YamlModel.translation_table. rewrite bind_ok. 
  assert (C : forall rules, match compiled rules d with Built stps => YOk stps | Refused (TranslationFailed e) => YErr (TestError (CompilationError e))
    | Refused (ParseFailed es) => YErr (TestError (TableErrors es)) | Panicked => YPanic end = YOk stps <-> compiled rules d = Built stps).
  { intros rules. destruct (compiled rules d) as [t|[]|]; split; congruence. }
  split; intros (rules & H1 & H2); exists rules; (split; [|apply C, H2]); destruct s; cbn in *; try apply loaded_ok, H1; [discriminate|destruct H1].
Qed.
Lemma check_tables_ok tables dt d l : forall rs, check_tables tables dt d l = YOk rs <->
  exists rss, Forall2 (table_results (display_translate dt) d l) tables rss /\ rs = List.concat rss.
Proof.
  induction tables as [|t tables IH]; intros rs; cbn [YamlModel.check_tables].
  - split; [intros [= <-]; exists []; auto|]. intros (rss & F & ->). inversion F. reflexivity.
  - rewrite bind_ok. split.
    + intros (stps & E1 & E). apply bind_ok in E. destruct E as (rs1 & E2 & E). apply bind_ok in E. destruct E as (more & E3 & [= <-]).
      apply IH in E3. destruct E3 as (rss & F & ->). apply translation_table_ok in E1. destruct E1 as (rules & R & C). apply check_tests_ok in E2.
      exists (rs1 :: rss). split; [|reflexivity]. constructor; [|exact F]. exists rules, stps. auto.
    + intros (rss & F & ->). inversion F as [|? rs1 ? rss' (rules & stps & R & C & T) F']; subst. exists stps. split; [apply translation_table_ok; eauto|].
      apply bind_ok. exists rs1. split; [apply check_tests_ok, T|]. apply bind_ok. exists (List.concat rss'). split; [apply IH; eauto|reflexivity].
Qed.
Notation direction_results := (direction_results ws is_alphabetic lower upper long_sort compat order1 order2 fs trim is_utf8_name is_latin1_name parse_usize).
Notation check_direction := (check_direction ws is_alphabetic lower upper long_sort compat order1 order2 fs trim is_utf8_name is_latin1_name parse_usize).
Lemma check_direction_ok s tables d l rs : check_direction s tables d l = YOk rs <-> direction_results s tables d l rs.
Proof.
  unfold YamlModel.check_direction, YamlSpec.direction_results, display_table. rewrite bind_ok. cbv zeta. split.
  - intros (dt & E & E2). apply bind_ok in E. destruct E as (rules & E1 & [= <-]). exists rules. split; [|apply check_tables_ok, E2].
    destruct s as [[]|]; cbn; try apply loaded_ok, E1. injection E1 as <-. reflexivity.
  - intros (rules & R & H). eexists. split; [|apply check_tables_ok, H]. apply bind_ok. exists rules. split; [|reflexivity].
    destruct s as [[]|]; cbn in *; try apply loaded_ok, R. subst. reflexivity.
Qed.
Lemma reversed_swapped t : reversed t = swapped t. Proof. destruct t. reflexivity. Qed.
Notation section_results := (section_results ws is_alphabetic lower upper long_sort compat forward_only order1 order2 fs trim is_utf8_name is_latin1_name parse_usize).
Notation check_matrix := (check_matrix ws is_alphabetic lower upper long_sort compat forward_only order1 order2 fs trim is_utf8_name is_latin1_name parse_usize).
Lemma check_matrix_ok s tables m l rs : check_matrix s tables m l = YOk rs <-> section_results s tables m l rs.
Proof.
  unfold YamlModel.check_matrix, YamlSpec.section_results. cbv zeta.
  assert (B : forall l rs, (if forward_only then YOk [] else check_direction s tables Backward l) = YOk rs <-> if forward_only then rs = [] else direction_results s tables Backward l rs).
  { intros l0 rs0. destruct forward_only; [split; congruence|apply check_direction_ok]. }
  destruct m.
  - apply check_direction_ok.
  - apply B.
  - rewrite (map_ext _ _ reversed_swapped). rewrite bind_ok. split.
    + intros (a & E1 & E). apply bind_ok in E. destruct E as (b & E2 & [= <-]). exists a, b. split; [reflexivity|]. split; [apply check_direction_ok, E1|apply B, E2].
    + intros (a & b & -> & H1 & H2). exists a. split; [apply check_direction_ok, H1|]. apply bind_ok. exists b. split; [apply B, H2|reflexivity].
  - split; congruence.
  - split; congruence.
  - split; congruence.
Qed.

(** ** Files *)
Notation entry := (entry ws is_alphabetic lower upper long_sort compat forward_only order1 order2 fs trim is_utf8_name is_latin1_name parse_usize).
Notation yaml := (yaml ws is_alphabetic lower upper long_sort compat forward_only order1 order2 fs trim is_utf8_name is_latin1_name parse_usize).
Definition entered (s : ystate) (i : item) (s' : ystate) : Prop :=
  let '(mk_ystate rs dp ts mo was) := s in
  match i with
  | IDisplay x => s' = mk_ystate rs (Some x) ts mo false
  | ITable x => s' = mk_ystate rs dp (if was then ts ++ [x] else [x]) mo true
  | IFlags x => s' = mk_ystate rs dp ts x false
  | ITests l => exists more, section_results dp ts mo l more /\ s' = mk_ystate (rs ++ more) dp ts mo false
  end.
Lemma entry_reads s es s' r : entry s es = YOk (s', r) <-> exists kv, es = pair_events kv ++ r /\ exists i, item_is kv i /\ entered s i s'.
Proof.
  destruct s as [rs dp ts mo was]. unfold YamlModel.entry. rewrite bind_ok2. split.
  - intros (k & es1 & E & H). apply scalar_reads in E. destruct E as (nk & -> & Tk).
    key K0; [|key K0; [|key K0; [|key K0; [|discriminate]]]]; apply bind_ok2 in H; destruct H as (v & es2 & H & H').
    + injection H' as <- <-. apply y_display_reads in H. destruct H as (n & -> & X). exists (nk, n). unfold pair_events. cbn [fst snd]. rewrite <- app_assoc. split; [reflexivity|]. exists (IDisplay v). split; [constructor; assumption|reflexivity].
    + injection H' as <- <-. apply y_table_reads in H. destruct H as (n & -> & X). exists (nk, n). unfold pair_events. cbn [fst snd]. rewrite <- app_assoc. split; [reflexivity|]. exists (ITable v). split; [constructor; assumption|reflexivity].
    + injection H' as <- <-. apply y_flags_reads in H. destruct H as (n & -> & X). exists (nk, n). unfold pair_events. cbn [fst snd]. rewrite <- app_assoc. split; [reflexivity|]. exists (IFlags v). split; [constructor; assumption|reflexivity].
    + apply bind_ok in H'. destruct H' as (more & M & [= <- <-]). apply check_matrix_ok in M. apply y_tests_reads in H. destruct H as (n & -> & l & -> & X). exists (nk, Sequence l). unfold pair_events. cbn [fst snd]. rewrite <- app_assoc. split; [reflexivity|].
      exists (ITests v). split; [constructor; assumption|]. exists more. auto.
  - intros (kv & -> & i & H & E). unfold pair_events. destruct H as [k v x W X|k v x W X|k v x W X|k l x W X]; cbn [fst snd]; rewrite <- app_assoc;
      (eexists; eexists; split; [apply scalar_reads; exists k; split; [reflexivity|exact W]|]); words; apply bind_ok2; exists x, r; cbn [entered] in E.
    + subst. split; [apply y_display_reads; eauto|reflexivity].
    + subst. split; [apply y_table_reads; eauto|reflexivity].
    + subst. split; [apply y_flags_reads; eauto|reflexivity].
    + destruct E as (more & M & ->). split; [apply y_tests_reads; eauto|]. apply bind_ok. exists more. split; [apply check_matrix_ok, M|reflexivity].
Qed.

Lemma latest_snoc {A B} (f : A -> option B) l : forall d x, latest f d (l ++ [x]) = match f x with Some b => b | None => latest f d l end.
Proof. induction l as [|a l IH]; intros d x; [reflexivity|]. cbn [app latest]. apply IH. Qed.
Definition table_step (s : list table_source * bool) (i : item) : list table_source * bool :=
  match i with ITable x => (if snd s then fst s ++ [x] else [x], true) | _ => (fst s, false) end.
Definition run_tables (l : list item) : list table_source * bool := fold_left table_step l ([], false).
Lemma run_snoc l i : run_tables (l ++ [i]) = table_step (run_tables l) i.
Proof. unfold run_tables. apply fold_left_app. Qed.
Lemma run_last l : snd (run_tables l) = true <-> exists l' x, l = l' ++ [ITable x].
Proof.
  destruct l as [|i l _] using rev_ind; [split; [discriminate|intros (l' & x & E); destruct l'; discriminate]|]. rewrite run_snoc. split.
  - destruct i; cbn; try discriminate. eauto.
  - intros (l' & x & E). apply app_inj_tail in E. destruct E as [_ ->]. reflexivity.
Qed.
Lemma run_group ts : forall l u, ts <> [] -> fold_left table_step (map ITable ts) (l, u) = ((if u then l else []) ++ ts, true).
Proof.
  induction ts as [|t ts IH]; intros l u N; [congruence|]. cbn [map fold_left table_step snd fst]. destruct ts as [|t' ts]; [destruct u; reflexivity|].
  rewrite IH by discriminate. destruct u; [rewrite <- app_assoc|]; reflexivity.
Qed.
Lemma run_other back : Forall (fun i => ~ is_table i) back -> forall s, fst (fold_left table_step back s) = fst s.
Proof. induction 1 as [|i back N F IH]; intros s; [reflexivity|]. cbn [fold_left]. rewrite IH. destruct i; cbn in *; tauto. Qed.
Lemma in_force_ok before tables : tables_in_force before tables <-> tables = fst (run_tables before).
Proof.
  split.
  - intros (front & back & -> & NB & NF & E). unfold run_tables. rewrite !fold_left_app, run_other by exact NB.
    destruct tables as [|t tables]; [rewrite E by reflexivity; reflexivity|].
    fold (run_tables front). destruct (run_tables front) as [ts u] eqn:R. rewrite run_group by discriminate. cbn [fst].
    destruct u; [|reflexivity]. exfalso. assert (S : snd (run_tables front) = true) by (rewrite R; reflexivity). apply run_last in S. destruct S as (l' & x & S).
    apply (NF _ _ S). exact I.
  - intros ->. induction before as [|i before IH] using rev_ind.
    + exists [], []. split; [reflexivity|]. split; [constructor|]. split; [intros f' j X; destruct f'; discriminate X|reflexivity].
    + rewrite run_snoc. destruct i as [s|s|m|l]; cbn [table_step fst].
      * destruct IH as (front & back & E & NB & NF & EN). exists front, (back ++ [IDisplay s]). rewrite E at 1. rewrite <- !app_assoc. split; [reflexivity|].
        split; [apply Forall_app; split; [exact NB|repeat constructor; cbn; tauto]|auto].
      * destruct (snd (run_tables before)) eqn:W.
        -- apply run_last in W. destruct W as (l' & x & W). destruct IH as (front & back & E & NB & NF & EN).
           assert (back = []) as ->.
           { destruct back as [|b back _] using rev_ind; [reflexivity|]. exfalso. rewrite W, !app_assoc in E. apply app_inj_tail in E. destruct E as [_ <-].
             apply Forall_app in NB. destruct NB as [_ NB]. inversion NB; subst. cbn in *. tauto. }
           exists front, []. rewrite app_nil_r in E. rewrite E at 1. rewrite map_app, app_nil_r, <- app_assoc. split; [reflexivity|]. split; [constructor|]. split; [exact NF|].
           intros X. destruct (fst (run_tables before)); discriminate.
        -- exists before, []. split; [reflexivity|]. split; [constructor|]. split; [|discriminate].
           intros f' j -> J. destruct j; cbn in J; try tauto. assert (T : snd (run_tables (f' ++ [ITable s0])) = true) by (apply run_last; eauto). congruence.
      * destruct IH as (front & back & E & NB & NF & EN). exists front, (back ++ [IFlags m]). rewrite E at 1. rewrite <- !app_assoc. split; [reflexivity|].
        split; [apply Forall_app; split; [exact NB|repeat constructor; cbn; tauto]|auto].
      * destruct IH as (front & back & E & NB & NF & EN). exists front, (back ++ [ITests l]). rewrite E at 1. rewrite <- !app_assoc. split; [reflexivity|].
        split; [apply Forall_app; split; [exact NB|repeat constructor; cbn; tauto]|auto].
Qed.
Definition state (before : list item) (rs : list test_result) : ystate :=
  mk_ystate rs (latest a_display None before) (fst (run_tables before)) (latest a_flags MForward before) (snd (run_tables before)).
Lemma state_snoc before i rs : (forall l, i <> ITests l) -> forall s', entered (state before rs) i s' <-> s' = state (before ++ [i]) rs.
Proof.
  intros N s'. unfold state, entered. rewrite !latest_snoc, run_snoc. destruct i as [s|s|m|l]; [tauto|tauto|tauto|destruct (N l eq_refl)].
Qed.
Lemma state_tests before l rs more : mk_ystate (rs ++ more) (latest a_display None before) (fst (run_tables before)) (latest a_flags MForward before) false = state (before ++ [ITests l]) (rs ++ more).
Proof. unfold state. rewrite !latest_snoc, run_snoc. reflexivity. Qed.
Notation file_results := (file_results ws is_alphabetic lower upper long_sort compat forward_only order1 order2 fs trim is_utf8_name is_latin1_name parse_usize).
Lemma entered_all items : forall before rs s', steps entered (state before rs) items s' <->
  exists more, file_results before items more /\ s' = state (before ++ items) (rs ++ more).
Proof.
  induction items as [|i items IH]; intros before rs s'; split.
  - intros H. inversion H; subst. exists []. rewrite !app_nil_r. split; [constructor|reflexivity].
  - intros (more & F & ->). inversion F; subst. rewrite !app_nil_r. constructor.
  - intros H. inversion H as [|? ? s1 ? ? E H']; subst. assert (D : (forall l, i <> ITests l) \/ exists l, i = ITests l) by (destruct i; (left; congruence) || (right; eauto)).
    destruct D as [N|(l & ->)].
    + apply (state_snoc _ _ _ N) in E. subst s1. apply IH in H'. destruct H' as (more & F & ->). exists more. rewrite <- app_assoc. split; [|reflexivity].
      apply fr_other; assumption.
    + cbn [entered state] in E. destruct E as (more & R & ->). rewrite (state_tests before l) in H'. apply IH in H'. destruct H' as (more' & F & ->).
      exists (more ++ more'). rewrite <- !app_assoc. split; [|reflexivity]. eapply fr_tests; [apply in_force_ok; reflexivity|exact R|exact F].
  - intros (more & F & ->). inversion F as [|? ? ? N F'|tests ? tables rs1 more1 T R F']; subst.
    + econstructor; [apply (state_snoc _ _ _ N); reflexivity|]. apply IH. exists more. rewrite <- app_assoc. auto.
    + apply in_force_ok in T. subst tables. econstructor; [exists rs1; split; [exact R|reflexivity]|]. rewrite (state_tests before tests). apply IH. exists more1. rewrite <- !app_assoc. auto.
Qed.
Lemma steps_items {A X Y} (is : X -> Y -> Prop) (step : A -> Y -> A -> Prop) xs : forall a a',
  steps (fun a x a' => exists y, is x y /\ step a y a') a xs a' <-> exists ys, Forall2 is xs ys /\ steps step a ys a'.
Proof.
  induction xs as [|x xs IH]; intros a a'; split.
  - intros H. inversion H; subst. exists []. split; constructor.
  - intros (ys & F & S). inversion F; subst. inversion S; subst. constructor.
  - intros H. inversion H as [|? ? a1 ? ? (y & I1 & I2) H']; subst. apply IH in H'. destruct H' as (ys & F & S). exists (y :: ys). split; [constructor; assumption|econstructor; eassumption].
  - intros (ys & F & S). inversion F as [|? y ? ys' I1 F']; subst. inversion S as [|? ? a1 ? ? S1 S2]; subst. econstructor; [exists y; eauto|]. apply IH. eauto.
Qed.
Lemma stream_start_ok es r u : stream_start es = YOk (u, r) <-> es = YStreamStart (Some true) :: r.
Proof. unfold stream_start. destruct u. split; [|intros ->; reflexivity]. destruct es as [|[] es]; try discriminate. destruct utf8 as [[]|]; try discriminate. intros [= <-]. reflexivity. Qed.
Lemma doc_start_ok es r u : document_start es = YOk (u, r) <-> es = YDocStart :: r.
Proof. unfold document_start. destruct u. split; [destruct es as [|[]]; try discriminate; intros [= <-]; reflexivity|intros ->; reflexivity]. Qed.
Lemma doc_end_ok es r u : document_end es = YOk (u, r) <-> es = YDocEnd :: r.
Proof. unfold document_end. destruct u. split; [destruct es as [|[]]; try discriminate; intros [= <-]; reflexivity|intros ->; reflexivity]. Qed.
Lemma stream_end_ok es r u : stream_end es = YOk (u, r) <-> es = YStreamEnd :: r.
Proof. unfold stream_end. destruct u. split; [destruct es as [|[]]; try discriminate; intros [= <-]; reflexivity|intros ->; reflexivity]. Qed.
Lemma item_text kv i : item_is kv i -> exists v, text (fst kv) v.
Proof. intros []; match goal with W : word ?w ?k |- _ => exists (lit w); exact W end. Qed.
Lemma yaml_ok es rs : yaml es = YOk rs <-> exists l items rest,
  es = file_events (Mapping l) ++ rest /\ Forall2 item_is l items /\ file_results [] items rs.
Proof.
  assert (W := fun a es a' r => while_ok entry pair_events (fun s kv s' => exists i, item_is kv i /\ entered s i s') entry_reads
     (fun s kv s' H => match H with ex_intro _ i (conj P _) => match item_text kv i P with ex_intro _ v (ex_intro _ b E) => 
        ex_intro _ b (ex_intro _ v (ex_intro _ (events (snd kv)) (f_equal (fun n => events n ++ events (snd kv)) E))) end end) a es a' r).
  unfold YamlModel.yaml. rewrite bind_ok2. split.
  - intros (u & es1 & E1 & E). apply stream_start_ok in E1. subst es. apply bind_ok2 in E. destruct E as (u2 & es2 & E1 & E). apply doc_start_ok in E1. subst es1.
    apply bind_ok2 in E. destruct E as (u3 & es3 & E1 & E). apply map_start_ok in E1. subst es2. apply bind_ok2 in E. destruct E as (s & es4 & E1 & E).
    apply bind_ok2 in E. destruct E as (u4 & es5 & E2 & E). apply map_end_ok in E2. subst es4. apply bind_ok2 in E. destruct E as (u5 & es6 & E2 & E). apply doc_end_ok in E2. subst es5.
    apply bind_ok2 in E. destruct E as (u6 & es7 & E2 & [= <-]). apply stream_end_ok in E2. subst es6.
    apply W in E1. destruct E1 as (l & -> & S & _). apply steps_items in S. destruct S as (items & F & S). apply (entered_all items [] []) in S. destruct S as (more & R & ->).
    exists l, items, es7. split; [|split; [exact F|exact R]]. unfold file_events. cbn. rewrite <- !app_assoc. reflexivity.
  - intros (l & items & rest & -> & F & R). exists tt, (YDocStart :: YMapStart :: flat_map pair_events l ++ [YMapEnd; YDocEnd; YStreamEnd] ++ rest).
    split; [unfold file_events; cbn; rewrite <- !app_assoc; reflexivity|]. apply bind_ok2. do 2 eexists. split; [reflexivity|]. apply bind_ok2. do 2 eexists. split; [reflexivity|].
    apply bind_ok2. exists (state items rs), ([YMapEnd; YDocEnd; YStreamEnd] ++ rest). split; [|reflexivity].
    apply W. exists l. split; [reflexivity|]. split; [|apply no_scalar_cons; exact I]. apply steps_items. exists items. split; [exact F|]. apply (entered_all items [] []). exists rs. auto.
Qed.
End Run.
