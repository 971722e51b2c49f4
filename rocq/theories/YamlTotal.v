(** The reader of test files always ends, and does not panic by itself. *)
From Coq Require Import List String Lia.
From Verif Require Import Base BaseProofs RuleModel TableModel BrailleModel HyphenationModel TrieModel OperandModel UnescapeProofs
  LoopModel ConstraintModel IndicatorModel PipelineModel ParserModel IncludeModel IncludeProofs TranslatorModel YamlModel YamlSpec YamlProofs.
Import ListNotations.
Local Open Scope nat_scope.

Definition calm {A} (m : yres A) : Prop := m <> YPanic /\ m <> YNoFuel.
Lemma calm_ok {A} (a : A) : calm (YOk a). Proof. split; discriminate. Qed.
Lemma calm_err {A} e : calm (@YErr A e). Proof. split; discriminate. Qed.
Lemma calm_bind {A B} (m : yres A) (f : A -> yres B) : calm m -> (forall a, m = YOk a -> calm (f a)) -> calm (ybind m f).
Proof. intros [C1 C2] H. destruct m; cbn [ybind]; try congruence; [apply H; reflexivity|apply calm_err]. Qed.
Lemma scalar_calm es : calm (y_scalar es). Proof. destruct es as [|[] es]; split; discriminate. Qed.
Lemma map_start_calm es : calm (mapping_start es). Proof. destruct es as [|[] es]; split; discriminate. Qed.
Lemma map_end_calm es : calm (mapping_end es). Proof. destruct es as [|[] es]; split; discriminate. Qed.
Lemma seq_start_calm es : calm (sequence_start es). Proof. destruct es as [|[] es]; split; discriminate. Qed.
Lemma seq_end_calm es : calm (sequence_end es). Proof. destruct es as [|[] es]; split; discriminate. Qed.
Lemma while_calm {A} (body : A -> yp A) : (forall a es, calm (body a es)) ->
  (forall a es a' r, body a es = YOk (a', r) -> length r < length es) -> forall a es, calm (while_scalar body a es).
Proof.
  intros C D. assert (L : forall fuel a es, length es <= fuel -> calm (scalar_loop body fuel a es)).
  { induction fuel as [|fuel IH]; intros a es L.
    - destruct es; [apply calm_ok|cbn in L; lia].
    - destruct es as [|e es]; [apply calm_ok|]. cbn [scalar_loop]. destruct e; try apply calm_ok. apply calm_bind; [apply C|]. intros [a' r] E. apply IH. apply D in E. lia. }
  intros a es. apply L. lia.
Qed.
Lemma events_length n : 1 <= length (events n). Proof. destruct n; cbn; lia. Qed.
Lemma reads_shorter {A} (p : yp A) is es a r : preads p is -> p es = YOk (a, r) -> length r < length es.
Proof. intros P E. apply P in E. destruct E as (n & -> & _). rewrite app_length. pose proof (events_length n). lia. Qed.
Lemma pair_shorter {A} (body : A -> yp A) step : (forall a es a' r, body a es = YOk (a', r) <-> exists x, es = pair_events x ++ r /\ step a x a') ->
  forall a es a' r, body a es = YOk (a', r) -> length r < length es.
Proof. intros P a es a' r E. apply P in E. destruct E as (n & -> & _). unfold pair_events. rewrite !app_length. pose proof (events_length (fst n)). lia. Qed.
Ltac calms := repeat match goal with
  | |- calm (YOk _) => apply calm_ok
  | |- calm (YErr _) => apply calm_err
  | |- calm (y_scalar _) => apply scalar_calm
  | |- calm (mapping_start _) => apply map_start_calm
  | |- calm (mapping_end _) => apply map_end_calm
  | |- calm (sequence_start _) => apply seq_start_calm
  | |- calm (sequence_end _) => apply seq_end_calm
  | |- calm (ybind _ _) => apply calm_bind; [|let a := fresh "a" in intros a _; try destruct a as [? ?]]
  | |- calm (if ?b then _ else _) => destruct b
  | |- calm (match ?o with Some _ => _ | None => _ end) => destruct o
  end.
Lemma list_calm {A} (p : yp A) is : preads p is -> (forall es, calm (p es)) ->
  forall es, calm (ydo (_, es) <- sequence_start es;
                   ydo (l, es) <- while_scalar (fun l es => ydo (v, es) <- p es; YOk (l ++ [v], es)) [] es;
                   ydo (_, es) <- sequence_end es; YOk (l, es)).
Proof.
  intros P C es. calms. apply while_calm.
  - intros q0 es0. calms. apply C.
  - intros q0 es0 q1 r0 E. apply bind_ok2 in E. destruct E as (v0 & es1 & E & [= _ <-]). exact (reads_shorter _ _ _ _ _ P E).
Qed.
Lemma table_list_calm es : calm (table_list es). Proof. exact (list_calm _ _ scalar_reads scalar_calm es). Qed.
Lemma display_calm es : calm (y_display es).
Proof. unfold y_display. destruct es as [|[] es]; calms; try apply table_list_calm. Qed.
Lemma query_calm es : calm (table_query es).
Proof.
  unfold table_query. calms. apply while_calm.
  - intros q0 es0. calms.
  - intros q0 es0 q1 r0 E. apply bind_ok2 in E. destruct E as (v0 & es1 & E & E'). apply bind_ok2 in E'. destruct E' as (w & es2 & E' & [= _ <-]).
    apply (reads_shorter _ _ _ _ _ scalar_reads) in E, E'. lia.
Qed.
Lemma table_calm es : calm (y_table es).
Proof. unfold y_table. destruct es as [|[] es]; calms; try apply table_list_calm; try apply query_calm. Qed.
Lemma flags_calm es : calm (y_flags es). Proof. unfold y_flags. calms. Qed.
Lemma xfail_value_calm es : calm (xfail_value es). Proof. unfold xfail_value. calms. Qed.
Lemma xfail_calm es : calm (y_xfail es).
Proof.
  unfold y_xfail. destruct es as [|[] es]; calms; try apply xfail_value_calm. unfold xfail_mapping_value. calms. apply while_calm.
  - intros q0 es0. calms. apply xfail_value_calm.
  - intros q0 es0 q1 r0 E. apply bind_ok2 in E. destruct E as (v0 & es1 & E & E'). apply bind_ok2 in E'. destruct E' as (w & es2 & E' & E2).
    destruct (named _ v0); [|discriminate]. injection E2 as _ <-.
    apply (reads_shorter _ _ _ _ _ scalar_reads) in E. apply (reads_shorter _ _ _ _ _ xfail_value_reads) in E'. lia.
Qed.
Lemma emphasis_calm es : calm (emphasis_spans_value es).
Proof.
  unfold emphasis_spans_value. calms. apply while_calm.
  - intros q0 es0. calms.
  - intros q0 es0 q1 r0 E. apply bind_ok2 in E. destruct E as (v0 & es1 & E & E'). apply bind_ok2 in E'. destruct E' as (w & es2 & E' & [= _ <-]).
    apply (reads_shorter _ _ _ _ _ scalar_reads) in E, E'. lia.
Qed.
Lemma u16_calm es : calm (u16_value es). Proof. unfold u16_value. calms. Qed.
Lemma pos_calm es : calm (pos_values es). Proof. exact (list_calm _ _ u16_reads u16_calm es). Qed.
Lemma cursor_calm es : calm (y_cursor_position es).
Proof. unfold y_cursor_position. destruct es as [|[] es]; calms; apply u16_calm. Qed.
Lemma mode_calm es : calm (translation_mode_value es). Proof. unfold translation_mode_value. calms. Qed.
Lemma modes_calm es : calm (translation_modes es). Proof. exact (list_calm _ _ mode_value_reads mode_calm es). Qed.
Lemma text_calm es : calm (y_text es).
Proof.
  unfold y_text. calms. unfold unescaped. destruct (unescape EscDefault _) as [t r| |] eqn:E; calms. destruct (unescape_total _ _ E).
Qed.
Lemma option_calm t es : calm (test_option t es).
Proof.
  destruct t as [i e x em ee ip op cp ms mo ri]. unfold test_option. calms;
    try apply xfail_calm; try apply emphasis_calm; try apply pos_calm; try apply cursor_calm; try apply modes_calm; try apply u16_calm.
Qed.
Lemma test_calm es : calm (y_test es).
Proof.
  unfold y_test. calms; try apply text_calm.
  - match goal with |- calm (match ?l with [] => _ | _ => _ end) => destruct l as [|[] ?] end; calms; apply text_calm.
  - match goal with p : (str * str)%type |- _ => destruct p end. calms.
    match goal with |- calm (match ?l with [] => _ | _ => _ end) => destruct l as [|[] ?] end; calms. apply while_calm.
    + intros t0 es0. apply option_calm.
    + intros t0 es0 t1 r0. apply (pair_shorter test_option _ setting_reads).
Qed.
Lemma tests_loop_calm : forall fuel l es, length es <= fuel -> calm (tests_loop fuel l es).
Proof.
  induction fuel as [|fuel IH]; intros l es L.
  - destruct es; [apply calm_ok|cbn in L; lia].
  - destruct es as [|e es]; [apply calm_ok|]. cbn [tests_loop]. destruct e; try apply calm_ok. apply calm_bind; [apply test_calm|]. intros [t r] E. apply IH.
    apply (reads_shorter _ _ _ _ _ y_test_reads) in E. lia.
Qed.
Lemma tests_calm es : calm (y_tests es).
Proof. unfold y_tests. calms. apply tests_loop_calm. lia. Qed.
