(** C27, C28: the signs for capitals and emphasis. *)
From Coq Require Import Permutation Sorted.
From Verif Require Import Base BaseProofs RuleModel TranslationModel TranslationProofs TableModel TableProofs RegexpModel
  TrieModel TrieProofs PropTrie HyphenationModel LoopModel CompileModel CompileSpec
  CompileProofs MainTable ConstraintModel ConstraintSpec ConstraintProofs IndicatorModel IndicatorProofs
  CapsSpec CapsProofs CapsFacts EmphSpec EmphProofs MainSpec TraceSpec MainPass StepFacts TraceProofs PropMain SetupSpec SetupProofs SignSpec SignProofs
  PropIndicators CapsEmphSpec EmphWordProofs.

Lemma last_sign_is rules (f : rule -> option str) (g : rule -> option resolved) :
  (forall r, g r = match f r with Some dots => Some (sign dots r) | None => None end) -> sign_is rules f (last_some rules g).
Proof.
  intros G. rewrite (last_some_ext _ _ _ G). unfold sign_is.
  destruct (last_some rules (fun r => match f r with Some dots => Some (sign dots r) | None => None end)) as [t|] eqn:E.
  - apply last_sign in E. exact E.
  - intros r Hr. apply (proj1 (last_some_none rules _)) with (r := r) in E; [|exact Hr]. destruct (f r); [discriminate|reflexivity].
Qed.
Lemma last_value_is {A} rules (f g : rule -> option A) dflt : (forall r, g r = f r) ->
  value_is rules f dflt (match last_some rules g with Some v => v | None => dflt end).
Proof.
  intros G. rewrite (last_some_ext _ _ _ G). unfold value_is. destruct (last_some rules f) as [v|] eqn:E.
  - left. apply last_with_iff in E. exact E.
  - right. split; [|reflexivity]. apply last_some_none. exact E.
Qed.

(** ** Capitals *)
Definition the_caps (x : context) (rules : list rule) : caps_ind :=
  let get f := last_some rules (fun r => match f r with Some dots => Some (sign dots r) | None => None end) in
  mk_caps_ind (cls_chars (x_chars x) CUppercase)
    (match last_some rules (fun r => match r with RCapsmodechars cs => Some cs | _ => None end) with Some cs => cs | None => [] end)
    (cls_chars (x_chars x) CLetter) (x_chars x)
    (get (fun r => match r with RCapsletter dots _ => Some dots | _ => None end))
    (get (fun r => match r with RBegcapsword dots _ => Some dots | _ => None end))
    (get (fun r => match r with REndcapsword dots _ => Some dots | _ => None end))
    (get (fun r => match r with RBegcaps dots => Some dots | _ => None end))
    (get (fun r => match r with REndcaps dots => Some dots | _ => None end))
    (get (fun r => match r with RBegcapsphrase dots => Some dots | _ => None end))
    (get (fun r => match r with REndcapsphrase dots _ => Some dots | _ => None end))
    (match last_some rules (fun r => match r with
                               | REndcapsphrase _ PosBefore => Some true
                               | REndcapsphrase _ PosAfter => Some false
                               | _ => None end) with Some b => b | None => true end)
    (match last_some rules (fun r => match r with RLencapsphrase n => Some (as_usize n) | _ => None end) with
     | Some n => n | None => 2%N end).
Lemma the_caps_built x rules : build_caps_ind x rules = if caps_indicating (the_caps x rules) then Some (the_caps x rules) else None.
Proof. reflexivity. Qed.
Lemma the_caps_rules x rules : caps_rules x rules (the_caps x rules).
Proof.
  constructor; cbn [the_caps ui_upper ui_mode ui_letters ui_classes ui_letter ui_begword ui_endword ui_beg ui_end ui_begphrase ui_endphrase ui_before ui_len].
  all: try (intros c; apply class_In).
  all: try (apply last_value_is; reflexivity).
  all: try (apply last_sign_is; reflexivity).
  reflexivity.
Qed.
Lemma marked_any u chars : exists parts ms, text_parts u chars parts /\ parts_marked u chars parts ms /\
  caps_precompute u chars = Ok (sort_pos (flat_map (signs u) ms)).
Proof.
  destruct (caps_indicating u) eqn:E.
  - destruct (caps_marked u chars E) as (l & parts & ms & E1 & T & M & ->). eauto.
  - destruct (caps_words_spec u chars (find_words u chars) 0 [] [] 0 None (find_words_spec u chars) (Forall2_nil _)) as (l & parts & ms & H1 & H2 & H3 & H4 & H5 & H6); [left; auto|].
    exists parts, ms. split; [|split; [exact H5|]].
    + cbn [map app] in H2. split; [rewrite H2; apply find_words_spec|]. auto.
    + unfold caps_precompute. rewrite E. f_equal. unfold caps_indicating in E.
      destruct (ui_letter u) eqn:E1; [discriminate|]. destruct (ui_begword u) eqn:E2; [discriminate|]. destruct (ui_beg u) eqn:E3; [discriminate|]. destruct (ui_begphrase u) eqn:E4; [discriminate|].
      assert (ST : forall o c n m, stretch_marked u chars o c n m -> m = []).
      { intros o c n m S. destruct S; congruence. }
      assert (Z : ms = []); [|rewrite Z; reflexivity].
      clear - H5 ST E3 E4. induction H5 as [|p l m ms PM _ IH]; [reflexivity|]. rewrite IH, app_nil_r. clear IH.
      assert (SS : forall ss m, stretches_marked u chars ss m -> m = []) by (induction 1 as [|s ss m0 ms0 S _ I]; [reflexivity|]; rewrite I, (ST _ _ _ _ S); reflexivity).
      assert (WW : forall ws m, words_marked u chars ws m -> m = []) by (induction 1 as [|s ss m0 ms0 S _ I]; [reflexivity|]; rewrite I, (ST _ _ _ _ S); reflexivity).
      destruct PM; try congruence; eauto.
Qed.

(** ** Emphasis *)
Lemma names_snoc rules r : emph_names (rules ++ [r]) = match emph_name r with
  | Some n => if existsb (str_eqb n) (emph_names rules) then emph_names rules else emph_names rules ++ [n]
  | None => emph_names rules end.
Proof. unfold emph_names. rewrite fold_left_app. reflexivity. Qed.
Lemma existsb_name n l : existsb (str_eqb n) l = true <-> In n l.
Proof. rewrite existsb_exists. split; [intros (y & H & E); apply str_eqb_eq in E; subst; exact H|]. intros H. exists n. split; [exact H|]. apply str_eqb_eq. reflexivity. Qed.
Lemma names_facts rules : NoDup (emph_names rules) /\ (forall n, In n (emph_names rules) <-> exists r, In r rules /\ emph_name r = Some n) /\
  forall n1 n2, before n1 n2 (emph_names rules) -> exists l1 r l2, rules = l1 ++ r :: l2 /\ emph_name r = Some n1 /\ forall r', In r' l1 -> emph_name r' <> Some n2.
Proof.
  induction rules as [|r rules IH] using rev_ind.
  - split; [constructor|]. split; [intros n; split; [intros []|intros (r & [] & _)]|]. intros n1 n2 (p & q & z & E). destruct p; discriminate.
  - destruct IH as (ND & IN & OR). rewrite names_snoc.
    assert (IN' : forall n, (exists r0, In r0 (rules ++ [r]) /\ emph_name r0 = Some n) <-> In n (emph_names rules) \/ emph_name r = Some n).
    { intros n. rewrite IN. split.
      - intros (r0 & H & E). apply in_app_iff in H. destruct H as [H|[<-|[]]]; eauto.
      - intros [(r0 & H & E)|E]; [exists r0|exists r]; rewrite in_app_iff; cbn; auto. }
    assert (OR' : forall n1 n2, before n1 n2 (emph_names rules) -> exists l1 r0 l2, rules ++ [r] = l1 ++ r0 :: l2 /\ emph_name r0 = Some n1 /\ forall r', In r' l1 -> emph_name r' <> Some n2).
    { intros n1 n2 H. destruct (OR n1 n2 H) as (l1 & r0 & l2 & E & H1 & H2). exists l1, r0, (l2 ++ [r]). rewrite E, <- app_assoc. auto. }
    destruct (emph_name r) as [n|] eqn:EN.
    + destruct (existsb (str_eqb n) (emph_names rules)) eqn:EX.
      * apply existsb_name in EX. split; [exact ND|]. split; [|exact OR']. intros n'. rewrite IN'. split; [auto|]. intros [H|H]; [exact H|]. injection H as <-. exact EX.
      * assert (NI : ~ In n (emph_names rules)) by (rewrite <- existsb_name; congruence). split.
        { apply NoDup_Add with (a := n) (l := emph_names rules); [|auto]. rewrite <- (app_nil_r (emph_names rules)) at 1. apply Add_app. }
        split.
        { intros n'. rewrite IN', in_app_iff. cbn. split; [intros [H|[<-|[]]]; auto|]. intros [H|H]; [auto|]. injection H as <-. auto. }
        intros n1 n2 (p & q & z & E). destruct (exists_last (l := n2 :: z)) as (z' & y & EZ); [discriminate|].
        destruct z as [|z0 z].
        -- assert (EE : emph_names rules ++ [n] = (p ++ n1 :: q) ++ [n2]) by (rewrite E, <- app_assoc; reflexivity).
           apply app_inj_tail in EE. destruct EE as [E1 ->]. 
           assert (I1 : In n1 (emph_names rules)) by (rewrite E1; apply in_elt). apply IN in I1. destruct I1 as (r1 & H1 & E2).
           apply in_split in H1. destruct H1 as (l1 & l2 & ->). exists l1, r1, (l2 ++ [r]). rewrite <- app_assoc. split; [reflexivity|]. split; [exact E2|].
           intros r' Hr E3. apply NI, IN. exists r'. rewrite in_app_iff. auto.
        -- apply OR'. destruct (exists_last (l := z0 :: z)) as (z1 & y1 & EY); [discriminate|].
           assert (EE : emph_names rules ++ [n] = (p ++ n1 :: q ++ n2 :: z1) ++ [y1]).
           { rewrite E, EY. rewrite <- app_assoc. cbn [app]. rewrite <- app_assoc. reflexivity. }
           apply app_inj_tail in EE. destruct EE as [E1 _]. exists p, q, z1. exact E1.
    + split; [exact ND|]. split; [|exact OR']. intros n'. rewrite IN'. split; [auto|]. intros [H|H]; [exact H|discriminate].
Qed.
Lemma class_built x rules name : emph_rules x rules (build_emph_class x rules name) /\ em_name (build_emph_class x rules name) = name.
Proof.
  split; [|reflexivity]. constructor; cbn [build_emph_class em_name em_letter em_beg em_end em_begword em_endword em_begphrase em_endphrase em_before em_len em_mode em_no em_classes].
  all: try (apply last_value_is; intros r; unfold when; destruct r; cbn [emph_name]; try reflexivity; try (destruct (str_eqb _ _); reflexivity); destruct pos; reflexivity).
  all: try (apply last_sign_is; intros r; unfold when; destruct r; cbn [emph_name]; try reflexivity; destruct (str_eqb _ _); reflexivity).
  reflexivity.
Qed.
Lemma sign_is_some rules f o : sign_is rules f o -> (o <> None <-> exists r, In r rules /\ f r <> None).
Proof.
  intros H. destruct o as [t|]; cbn in H; split.
  - intros _. destruct H as (r & dots & (l1 & l2 & -> & E & _) & _). exists r. split; [apply in_elt|congruence].
  - intros _. discriminate.
  - intros N. destruct (N eq_refl).
  - intros (r & Hr & E). destruct (E (H r Hr)).
Qed.
Lemma indicating_iff x rules u : emph_rules x rules u -> (emph_indicating u = true <-> exists r, In r rules /\ speaks_of r (em_name u) /\ emph_begin r).
Proof.
  intros R. assert (K : emph_indicating u = true <-> em_letter u <> None \/ em_begword u <> None \/ em_beg u <> None \/ em_begphrase u <> None).
  { unfold emph_indicating. destruct (em_letter u), (em_begword u), (em_beg u), (em_begphrase u); split; intros H; try reflexivity; try discriminate; auto; try (left; discriminate); try (right; left; discriminate); try (right; right; left; discriminate); try (right; right; right; discriminate).
    destruct H as [H|[H|[H|H]]]; congruence. }
  rewrite K. rewrite (sign_is_some _ _ _ (er_letter _ _ _ R)), (sign_is_some _ _ _ (er_begword _ _ _ R)), (sign_is_some _ _ _ (er_beg _ _ _ R)), (sign_is_some _ _ _ (er_begphrase _ _ _ R)).
  unfold when. split.
  - intros [(r & Hr & E)|[(r & Hr & E)|[(r & Hr & E)|(r & Hr & E)]]]; exists r; (split; [exact Hr|]); destruct r; cbn in E |- *; try congruence;
      match type of E with context [str_eqb ?n _] => destruct (str_eqb n (em_name u)) eqn:ES; [apply str_eqb_eq in ES; rewrite ES; split; [constructor|exact Coq.Init.Logic.I]|congruence] end.
  - intros (r & Hr & E & Bg). apply speaks_iff in E. destruct r; cbn in E, Bg; try contradiction; injection E as E; [right; right; left|left|right; left|right; right; right]; eexists; (split; [exact Hr|]); cbn; rewrite E, (proj2 (str_eqb_eq _ _) eq_refl); discriminate.
Qed.
Lemma before_unfilter {A} (f : A -> bool) a b l : before a b (filter f l) -> before a b l.
Proof.
  revert a b. induction l as [|y l IH]; intros a b (p & q & z & E); [destruct p; discriminate|]. cbn [filter] in E. destruct (f y).
  - destruct p as [|p0 p]; injection E as E0 E.
    + subst y. assert (H : In b (filter f l)) by (rewrite E; apply in_elt). apply filter_In in H. destruct H as [H _]. apply in_split in H. destruct H as (l1 & l2 & ->). exists [], l1, l2. reflexivity.
    + destruct (IH a b) as (p' & q' & z' & ->); [exists p, q, z; exact E|]. exists (y :: p'), q', z'. reflexivity.
  - destruct (IH a b) as (p' & q' & z' & ->); [exists p, q, z; exact E|]. exists (y :: p'), q', z'. reflexivity.
Qed.
Lemma nth_before {A} (l : list A) : forall i j a b, nth_error l i = Some a -> nth_error l j = Some b -> i < j -> before a b l.
Proof.
  induction l as [|y l IH]; intros i j a b Ei Ej L; [destruct i; discriminate|]. destruct j as [|j]; [lia|]. destruct i as [|i]; cbn in Ei, Ej.
  - injection Ei as ->. apply nth_error_In, in_split in Ej. destruct Ej as (l1 & l2 & ->). exists [], l1, l2. reflexivity.
  - destruct (IH i j a b Ei Ej ltac:(lia)) as (p & q & z & ->). exists (y :: p), q, z. reflexivity.
Qed.
Lemma before_map {A B} (f : A -> B) a b l : before a b l -> before (f a) (f b) (map f l).
Proof. intros (p & q & z & ->). exists (map f p), (map f q), (map f z). rewrite map_app. cbn. rewrite map_app. reflexivity. Qed.
Lemma emph_built x rules : emph_classes x rules (build_emph x rules).
Proof.
  unfold emph_classes, build_emph. destruct (names_facts rules) as (ND & IN & OR).
  assert (MN : map em_name (map (build_emph_class x rules) (emph_names rules)) = emph_names rules).
  { rewrite map_map. rewrite <- map_id. apply map_ext. reflexivity. }
  split; [|split; [|split]].
  - revert ND. rewrite <- MN at 1. generalize (map (build_emph_class x rules) (emph_names rules)). intros l. induction l as [|u l IH]; cbn; [auto|].
    intros H. inversion H as [|? ? N1 N2]; subst. destruct (emph_indicating u); [|auto]. cbn. constructor; [|auto]. intros HH. apply N1.
    apply in_map_iff in HH. destruct HH as (v & E & Hv). apply filter_In in Hv. rewrite <- E. apply in_map. apply Hv.
  - apply Forall_forall. intros u Hu. apply filter_In in Hu. destruct Hu as [Hu _]. apply in_map_iff in Hu. destruct Hu as (n & <- & _). apply class_built.
  - intros n. rewrite in_map_iff. split.
    + intros (u & <- & H). apply filter_In in H. destruct H as [H I]. apply in_map_iff in H. destruct H as (n' & <- & H). apply (indicating_iff x rules); [apply class_built|exact I].
    + intros (r & Hr & E & Bg). exists (build_emph_class x rules n). split; [reflexivity|]. apply filter_In. split.
      * apply in_map. apply IN. exists r. split; [exact Hr|apply speaks_iff, E].
      * apply (indicating_iff x rules); [apply class_built|]. exists r. auto.
  - intros p q u v Eu Ev L. pose proof (nth_before _ _ _ _ _ Eu Ev L) as H. apply before_unfilter in H. apply (before_map em_name) in H. rewrite MN in H. destruct (OR _ _ H) as (l1 & r & l2 & E & H1 & H2). exists l1, r, l2. split; [exact E|]. split; [apply speaks_iff, H1|]. intros r' I' SP. apply (H2 r' I'), speaks_iff, SP.
Qed.
Lemma class_events u index chars spans e : In e (emph_emit u index chars spans) <-> class_event u index chars spans e.
Proof.
  unfold class_event. destruct (em_beg u) as [beg|] eqn:EB.
  - rewrite (mode_events u index chars spans beg EB). split.
    + intros (a & b & f & R & S & H). exists a, b. split; [exact R|]. left. exists beg, f. auto.
    + intros (a & b & R & [(beg' & f & E & S & H)|(E & _)]); [|discriminate]. injection E as <-. exists a, b, f. auto.
  - unfold emph_emit. rewrite in_flat_map. split.
    + intros ((a & b) & I & H). apply active_runs_In in I. cbn [fst snd] in H. exists a, b. split; [exact I|]. right. split; [reflexivity|].
      destruct I as (L1 & L2 & _). exists (emph_words u chars a b). split; [apply words_of; lia|].
      apply (words_events u index chars a b (emph_words u chars a b) e L1 L2 EB) in H; [|apply words_of; lia]. exact H.
    + intros (a & b & I & [(beg & f & E & _)|(_ & ws & R & H)]); [discriminate|]. exists (a, b). split; [apply active_runs_In, I|]. cbn [fst snd].
      destruct I as (L1 & L2 & _). apply (words_events u index chars a b ws e L1 L2 EB R). exact H.
Qed.
Lemma signs_here_map p es : signs_here p (map (fun e => (ev_pos e, ev_sign e)) es) = map ev_sign (filter (fun e => Nat.eqb (ev_pos e) p) es).
Proof.
  unfold signs_here, here. induction es as [|e es IH]; [reflexivity|]. cbn [map filter fst]. destruct (Nat.eqb (ev_pos e) p); cbn [map snd]; rewrite IH; reflexivity.
Qed.

Section Main.
Variable is_alphabetic : char -> bool.
Variable compat : bool.
Variable read_dictionary : str -> tres hyph.
Variable d : direction.
Variable x : context.
Variable rules : list rule.
Variable lower upper : char -> list char.
Variable sort : list event -> res (list event).
Variable m : main_table.
Hypothesis B : main_built is_alphabetic compat read_dictionary d x rules m.
Hypothesis DR : dictionaries_read read_dictionary.
Hypothesis SR : sort_rearranges sort.
Notation trace := (main_trace lower upper sort m).

(** ** C27 *)
(** The capitals of the text fall into groups of words in capitals and stretches of capitals
    in other words; each is marked as the table says; each mark makes a stretch of text
    capital that begins with a capital and has no letter but capitals; the marks follow one
    another; all capitals are marked if the table has signs for it; and what is written
    where a piece starts is what the marks put there. *)
Theorem C27_capital_signs : forall input spans out, trace input spans = Ok out ->
  exists u parts ms, caps_rules x rules u /\ text_parts u input parts /\ parts_marked u input parts ms /\
    (forall p, boundary out p -> signs_of Capitals out p = map snd (filter (fun y => Nat.eqb (fst y) p) (flat_map (signs u) ms))) /\
    Forall (mark_right u input) ms /\ laid_out 0 ms /\
    (can_mark u -> forall q, capital u input q -> marked_capital ms q).
Proof.
  intros input spans out E. destruct (family_signs _ _ _ _ _ _ lower upper sort m B DR SR _ _ _ E) as (sp & em & caps & _ & _ & EC & F).
  destruct (marked_any (the_caps x rules) input) as (parts & ms & T & M & EP). exists (the_caps x rules), parts, ms.
  split; [apply the_caps_rules|]. split; [exact T|]. split; [exact M|]. split; [|apply (marks_right _ _ parts); assumption].
  intros p BD. rewrite (F Capitals p BD). cbn [source]. unfold caps_placed in EC. rewrite (built_caps _ _ _ _ _ _ _ B), the_caps_built in EC.
  destruct (caps_indicating (the_caps x rules)) eqn:EI.
  - pose proof (eq_trans (eq_sym EC) EP) as Q. injection Q as ->. unfold signs_here. rewrite sort_pos_here. reflexivity.
  - injection EC as <-. unfold caps_precompute in EP. rewrite EI in EP.
    assert (Q : sort_pos (flat_map (signs (the_caps x rules)) ms) = []) by (injection EP as EP; symmetry; exact EP).
    change (signs_here p [] = signs_here p (flat_map (signs (the_caps x rules)) ms)). unfold signs_here. pose proof (sort_pos_here (flat_map (signs (the_caps x rules)) ms) p) as SH. unfold placed in *. rewrite Q in SH. rewrite <- SH. reflexivity.
Qed.
(** Where the last endcapsphrase of the table says "before", its dots are never written. *)
Theorem C27_end_before_is_not_written : forall input spans out, trace input spans = Ok out ->
  (exists r dots, last_with rules (fun r => match r with REndcapsphrase dots _ => Some dots | _ => None end) r dots /\ r = REndcapsphrase dots PosBefore) ->
  forall p dots pos, boundary out p -> ~ exists t, In t (signs_of Capitals out p) /\ r_origin t = Some (REndcapsphrase dots pos).
Proof.
  intros input spans out E (r & dots0 & L & ->) p dots pos BD (t & Ht & Et).
  destruct (C27_capital_signs _ _ _ E) as (u & parts & ms & R & _ & M & F & _ & _ & _). rewrite (F p BD) in Ht.
  assert (BF : ui_before u = true).
  { destruct (cr_before _ _ _ R) as [(r & L')|[_ ->]]; [|reflexivity]. destruct L as (a1 & b1 & X1 & _ & Z1), L' as (a2 & b2 & X2 & Y2 & Z2).
    rewrite X1 in X2. apply app_eq_cases in X2. destruct X2 as [(e & -> & X)|(e & -> & X)].
    - destruct e as [|e0 e]; injection X as <- X; [congruence|]. subst b1. specialize (Z1 r (in_elt _ _ _)). destruct r; try discriminate.
    - destruct e as [|e0 e]; injection X as -> X; [congruence|]. subst b2. specialize (Z2 _ (in_elt _ _ _)). discriminate. }
  assert (EP : ui_endphrase u <> None).
  { pose proof (cr_endphrase _ _ _ R) as H. destruct (ui_endphrase u); [discriminate|]. cbn in H. destruct L as (a1 & b1 & X1 & _).
    intros _. specialize (H (REndcapsphrase dots0 PosBefore)). rewrite X1 in H. specialize (H (in_elt _ _ _)). discriminate. }
  assert (OR : forall o f, sign_is rules f o -> (forall r dots', f r = Some dots' -> r <> REndcapsphrase dots pos) -> o <> Some t).
  { intros o f H N ->. cbn in H. destruct H as (r & dots' & (l1 & l2 & _ & Ef & _) & ->). cbn in Et. injection Et as ->. exact (N _ _ Ef eq_refl). }
  assert (N1 := OR _ _ (cr_letter _ _ _ R) ltac:(intros r dots' H; destruct r; discriminate)).
  assert (N2 := OR _ _ (cr_begword _ _ _ R) ltac:(intros r dots' H; destruct r; discriminate)).
  assert (N3 := OR _ _ (cr_endword _ _ _ R) ltac:(intros r dots' H; destruct r; discriminate)).
  assert (N4 := OR _ _ (cr_beg _ _ _ R) ltac:(intros r dots' H; destruct r; discriminate)).
  assert (N5 := OR _ _ (cr_end _ _ _ R) ltac:(intros r dots' H; destruct r; discriminate)).
  assert (N6 := OR _ _ (cr_begphrase _ _ _ R) ltac:(intros r dots' H; destruct r; discriminate)).
  clear OR. assert (PUT : forall q o, In (p, t) (put q o) -> o = Some t) by (intros q [r|]; cbn; [intros [H|[]]; injection H as _ ->; reflexivity|intros []]).
  assert (NP : forall m, (forall o c, m <> PhraseSigns o c) -> ~ In (p, t) (signs u m)).
  { intros mk NM. destruct mk as [o|o c n|o c|o c|o c]; cbn [signs]; intros H.
    - apply PUT in H. auto.
    - destruct n; [apply in_app_iff in H; destruct H as [H|H]|]; apply PUT in H; auto.
    - apply in_app_iff in H; destruct H as [H|H]; apply PUT in H; auto.
    - destruct (NM o c eq_refl).
    - apply PUT in H. auto. }
  apply in_map_iff in Ht. destruct Ht as ([q t'] & Et' & Ht). cbn in Et'. subst t'. apply filter_In in Ht. destruct Ht as [Ht Eq]. cbn in Eq. apply Nat.eqb_eq in Eq. subst q.
  apply in_flat_map in Ht. destruct Ht as (mk & Hm & Ht).
  assert (ST : forall o c n mm, stretch_marked u input o c n mm -> forall mk, In mk mm -> forall o' c', mk <> PhraseSigns o' c').
  { intros o c n mm S mk0 H o' c' ->. destruct S; try (destruct H as [H|H]; [discriminate|destruct H]); [|destruct H]. apply in_map_iff in H. destruct H as (? & H & _). discriminate. }
  revert mk Hm Ht. clear F BD. induction M as [|pt l mm ms PM M IH]; intros mk Hm Ht; [destruct Hm|]. apply in_app_iff in Hm. destruct Hm as [Hm|Hm]; [|eapply IH; eauto].
  revert Ht. apply NP. intros o' c'. clear IH.
  assert (SS : forall ss mm, stretches_marked u input ss mm -> forall mk, In mk mm -> forall o' c', mk <> PhraseSigns o' c').
  { induction 1 as [|s ss m0 ms0 S _ I]; intros mk0 H; [destruct H|]. apply in_app_iff in H. destruct H; [eapply ST; eauto|eapply I; eauto]. }
  assert (WW : forall ws mm, words_marked u input ws mm -> forall mk, In mk mm -> forall o' c', mk <> PhraseSigns o' c').
  { induction 1 as [|s ss m0 ms0 S _ I]; intros mk0 H; [destruct H|]. apply in_app_iff in H. destruct H; [eapply ST; eauto|eapply I; eauto]. }
  destruct PM.
  - eapply SS; eauto.
  - destruct H2; congruence.
  - destruct Hm as [<-|Hm]; [discriminate|]. eapply ST; eauto.
  - destruct Hm as [<-|[]]. discriminate.
  - eapply WW; eauto.
Qed.

(** ** C28 *)
(** The emphasis signs written where pieces start are those of the runs of emphasised text
    of each class, in the order of the events [es]; two that begin (or two that end) at one
    position are in the documented order provided that only beginning (only ending) signs
    stand there. *)
Theorem C28_emphasis_signs : forall input spans out, trace input spans = Ok out ->
  exists sp us es, marked_spans x rules input spans sp /\ emph_classes x rules us /\
    (forall p, boundary out p -> signs_of Emphasis out p = map ev_sign (filter (fun e => Nat.eqb (ev_pos e) p) es)) /\
    (forall e, In e es <-> exists k u, nth_error us k = Some u /\ class_event u k input sp e) /\
    (sort_correct sort -> forall p, (length es <= 20 /\ one_kind es p) \/ (forall q, one_kind es q) ->
       forall a b, before a b es -> ev_pos a = p -> ev_pos b = p -> in_order a b).
Proof.
  intros input spans out E. destruct (family_signs _ _ _ _ _ _ lower upper sort m B DR SR _ _ _ E) as (sp' & em & caps & ES' & EE & _ & F).
  rewrite (built_emph _ _ _ _ _ _ _ B) in EE. unfold emph_precompute in EE.
  destruct (event_sort sort (emph_events (build_emph x rules) 0 input sp')) as [es| |] eqn:SO; try discriminate. cbn [bind] in EE. injection EE as EE.
  exists sp', (build_emph x rules), es. split; [eapply marked_enriched; eauto|]. split; [apply emph_built|].
  assert (PM : Permutation (emph_events (build_emph x rules) 0 input sp') es).
  { unfold event_sort in SO. destruct (Nat.leb _ 20); [|apply SR, SO]. injection SO as <-. apply insertion_sort_facts. }
  split; [|split].
  - intros p BD. rewrite (F Emphasis p BD). cbn [source]. rewrite <- EE. apply signs_here_map.
  - intros e. split.
    + intros H. apply (Permutation_in _ (Permutation_sym PM)) in H. apply emph_events_In in H. destruct H as (k & u & Eu & H). exists k, u. split; [exact Eu|]. apply class_events, H.
    + intros (k & u & Eu & H). apply (Permutation_in _ PM), emph_events_In. exists k, u. split; [exact Eu|]. apply class_events, H.
  - intros SC p K. eapply (emph_order sort (build_emph x rules) input sp' es _ SO eq_refl SC).
    assert (OK : forall q, one_kind es q -> one_kind (emph_events (build_emph x rules) 0 input sp') q).
    { intros q H. unfold one_kind in *. cbn zeta in *. assert (FA : forall P, Forall P (filter (fun e => Nat.eqb (ev_pos e) q) es) -> Forall P (filter (fun e => Nat.eqb (ev_pos e) q) (emph_events (build_emph x rules) 0 input sp'))).
      { intros P H'. apply Forall_forall. intros e He. apply filter_In in He. destruct He as [He1 He2]. rewrite Forall_forall in H'. apply H'. apply filter_In. split; [apply (Permutation_in _ PM), He1|exact He2]. }
      destruct H as [H|[H|H]]; auto. }
    destruct K as [[K1 K2]|K]; [left|right].
    + split; [rewrite (Permutation_length PM); exact K1|apply OK, K2].
    + intros q. apply OK, K.
Qed.
End Main.
Print Assumptions C27_capital_signs.
Print Assumptions C27_end_before_is_not_written.
Print Assumptions C28_emphasis_signs.
