(** Lemmas about HyphenationModel.v. *)
From Verif Require Import Base BaseProofs HyphenationModel.

(** * Specification *)

(** Some occurrence of a dictionary pattern in the text [w] assigns [v] to the gap before
    character [g]. *)
Definition assigns (pats : list (str * list nat)) (w : str) (g v : nat) : Prop :=
  exists a key b tally k, w = a ++ key ++ b /\ key <> [] /\ sassoc key pats = Some tally /\
    nth_error tally k = Some v /\ g = length a + k.

(** The largest value assigned to the gap (0 if none). *)
Definition max_value (pats : list (str * list nat)) (w : str) (g v : nat) : Prop :=
  (v = 0 \/ assigns pats w g v) /\ forall v', assigns pats w g v' -> v' <= v.

(** One score per gap of the letters of the pattern. *)
Definition wf_patterns (pats : list (str * list nat)) : Prop :=
  forall key tally, In (key, tally) pats -> length tally = S (length key).

(** The structure of a pattern line: runs of digits ([digits_ok]) separated by letters;
    [pat_spec p letters tally]: the k-th entry of [tally] is the last digit written
    between letter k and letter k+1 (0 if there is none). *)
Inductive digits_ok : list (char * nat) -> Prop :=
| do_nil : digits_ok []
| do_cons c d ds : to_digit10 c = Some d -> digits_ok ds -> digits_ok ((c, d) :: ds).
Inductive pat_spec : str -> str -> list nat -> Prop :=
| ps_last ds : digits_ok ds -> pat_spec (map fst ds) [] [last (map snd ds) 0]
| ps_more ds c p ls t : digits_ok ds -> to_digit10 c = None -> pat_spec p ls t ->
    pat_spec (map fst ds ++ c :: p) (c :: ls) (last (map snd ds) 0 :: t).

Lemma skipn_skipn' {A} (l : list A) a b : skipn a (skipn b l) = skipn (a + b) l.
Proof.
  revert l; induction b as [|b IH]; intros l; [rewrite Nat.add_0_r; reflexivity|].
  destruct l as [|x l]; [rewrite !skipn_nil; reflexivity|].
  replace (a + S b) with (S (a + b)) by lia. simpl. apply IH.
Qed.

Lemma nth_map_seq {A} (f : nat -> A) n i d : i < n -> nth i (map f (seq 0 n)) d = f i.
Proof.
  intros. rewrite nth_indep with (d' := f 0) by (rewrite map_length, seq_length; lia).
  rewrite map_nth, seq_nth by lia. reflexivity.
Qed.

(** * Lookup *)
Lemma sassoc_In {A} k v (l : list (str * A)) : sassoc k l = Some v -> In (k, v) l.
Proof.
  induction l as [|[k' v'] r IH]; simpl; [discriminate|].
  destruct (str_eqb k k') eqn:E; [apply str_eqb_eq in E; intros H; inversion H; subst; auto|auto].
Qed.
Lemma str_eqb_refl a : str_eqb a a = true.
Proof. apply str_eqb_eq. reflexivity. Qed.

(** * Scores *)
Lemma raise_at_spec scores gap v : gap < length scores ->
  exists sc, raise_at scores gap v = Some sc /\ length sc = length scores /\
    forall g, nth g sc 0 = if Nat.eqb g gap then Nat.max (nth g scores 0) v else nth g scores 0.
Proof.
  revert gap; induction scores as [|s r IH]; intros gap H; simpl in H; [lia|].
  destruct gap as [|gap]; simpl.
  - eexists; split; [reflexivity|]. split; auto. intros [|g]; simpl; auto.
    destruct (Nat.ltb_spec s v); lia.
  - destruct (IH gap) as (sc & -> & HL & HN); [lia|]. simpl. eexists; split; [reflexivity|].
    simpl. split; [lia|]. intros [|g]; simpl; auto.
Qed.

Definition contrib (st : nat) (tally : list nat) (g : nat) : nat :=
  if Nat.leb st g then nth (g - st) tally 0 else 0.

Lemma add_tally_spec tally : forall scores gap, gap + length tally <= length scores ->
  exists sc, add_tally scores gap tally = Some sc /\ length sc = length scores /\
    forall g, nth g sc 0 = Nat.max (nth g scores 0) (contrib gap tally g).
Proof.
  induction tally as [|v r IH]; intros scores gap H; simpl in *.
  - exists scores. split; auto. split; auto. intros g. unfold contrib.
    replace (if Nat.leb gap g then nth (g - gap) [] 0 else 0) with 0
      by (destruct (Nat.leb gap g); destruct (g - gap); reflexivity). lia.
  - destruct (raise_at_spec scores gap v) as (sc & -> & HL & HN); [lia|].
    destruct (IH sc (S gap)) as (sc2 & -> & HL2 & HN2); [lia|].
    eexists; split; [reflexivity|]. split; [lia|]. intros g. rewrite HN2, HN. unfold contrib.
    destruct (Nat.eqb_spec g gap).
    + subst. rewrite Nat.leb_refl, Nat.sub_diag.
      change (nth 0 (v :: r) 0) with v. destruct (Nat.leb_spec (S gap) gap); lia.
    + destruct (Nat.leb_spec gap g); destruct (Nat.leb_spec (S gap) g); try lia.
      replace (g - gap) with (S (g - S gap)) by lia. simpl. lia.
Qed.

Definition span_value (pats : list (str * list nat)) (w : str) (g : nat) (sp : nat * nat) : nat :=
  match sassoc (substring w (fst sp) (snd sp)) pats with
  | Some tally => contrib (fst sp) tally g
  | None => 0
  end.

Lemma score_loop_spec pats w sp : wf_patterns pats ->
  (forall st en, In (st, en) sp -> st < en <= length w) ->
  forall scores, length scores = length w + 1 ->
  exists sc, score_loop pats w sp scores = Some sc /\ length sc = length w + 1 /\
    forall g, nth g sc 0 = fold_right Nat.max (nth g scores 0) (map (span_value pats w g) sp).
Proof.
  intros Hwf. induction sp as [|[st en] r IH]; intros Hsp scores HL.
  - exists scores. simpl. auto.
  - simpl. unfold span_value at 1. simpl.
    assert (Hr : forall st0 en0, In (st0, en0) r -> st0 < en0 <= length w) by (intros; apply Hsp; simpl; auto).
    assert (Hse : st < en <= length w) by (apply Hsp; simpl; auto).
    destruct (sassoc (substring w st en) pats) as [tally|] eqn:E.
    + pose proof (Hwf _ _ (sassoc_In _ _ _ E)) as Ht.
      assert (Hsub : length (substring w st en) = en - st).
      { unfold substring. rewrite firstn_length, skipn_length. lia. }
      destruct (add_tally_spec tally scores st) as (sc & -> & HL2 & HN); [lia|].
      destruct (IH Hr sc) as (sc2 & -> & HL3 & HN2); [lia|].
      exists sc2. split; auto. split; auto. intros g. rewrite HN2, HN.
      clear. induction (map (span_value pats w g) r) as [|x l IHl]; simpl; lia.
    + destruct (IH Hr scores HL) as (sc2 & -> & HL3 & HN2). exists sc2. split; auto.
Qed.

Lemma spans_spec n st en : In (st, en) (spans n) <-> st < en <= n.
Proof.
  unfold spans. rewrite in_flat_map. split.
  - intros (x & Hx & H). apply in_map_iff in H as (k & E & Hk). inversion E; subst.
    apply in_seq in Hx. apply in_seq in Hk. lia.
  - intros H. exists st. split; [apply in_seq; lia|]. apply in_map_iff. exists (en - st - 1).
    split; [f_equal; lia|apply in_seq; lia].
Qed.

Lemma substring_occ (w a key b : str) : w = a ++ key ++ b ->
  substring w (length a) (length a + length key) = key.
Proof.
  intros ->. unfold substring.
  rewrite skipn_app, Nat.sub_diag, skipn_all2 by lia. simpl.
  replace (length a + length key - length a) with (length key) by lia.
  rewrite firstn_app, Nat.sub_diag, firstn_all. simpl. apply app_nil_r.
Qed.
Lemma occ_substring (w : str) st en : st < en <= length w ->
  w = firstn st w ++ substring w st en ++ skipn en w /\ length (firstn st w) = st /\ substring w st en <> [].
Proof.
  intros H. split; [|split].
  - unfold substring. rewrite <- (firstn_skipn st w) at 1. f_equal.
    rewrite <- (firstn_skipn (en - st) (skipn st w)) at 1. f_equal.
    rewrite skipn_skipn'. f_equal. lia.
  - rewrite firstn_length. lia.
  - intros E. apply (f_equal (@length N)) in E. unfold substring in E.
    rewrite firstn_length, skipn_length in E. simpl in E. lia.
Qed.

Lemma fold_max_in l i : fold_right Nat.max i l = i \/ In (fold_right Nat.max i l) l.
Proof. induction l as [|x l IH]; simpl; auto. destruct IH as [E|E]; destruct (Nat.max_spec x (fold_right Nat.max i l)) as [[_ ->]|[_ ->]]; auto. Qed.
Lemma fold_max_ge l i x : In x l -> x <= fold_right Nat.max i l.
Proof. induction l as [|y l IH]; simpl; [tauto|]. intros [->|H]; [lia|]. specialize (IH H). lia. Qed.

Lemma fold_max_value pats w g : wf_patterns pats ->
  max_value pats w g (fold_right Nat.max 0 (map (span_value pats w g) (spans (length w)))).
Proof.
  intros Hwf. split.
  - match goal with |- ?v = 0 \/ _ => destruct (Nat.eq_dec v 0) as [E|E]; [auto|right] end.
    destruct (fold_max_in (map (span_value pats w g) (spans (length w))) 0) as [F|F]; [lia|].
    apply in_map_iff in F as ([st en] & F & Hin).
    rewrite <- F in *. apply spans_spec in Hin.
    unfold span_value in *. simpl in *.
    destruct (sassoc (substring w st en) pats) as [tally|] eqn:S; [|congruence].
    unfold contrib in *. destruct (Nat.leb_spec st g); [|congruence].
    destruct (occ_substring w st en Hin) as (O1 & O2 & O3).
    exists (firstn st w), (substring w st en), (skipn en w), tally, (g - st).
    split; auto. split; auto. split; auto. split; [|lia].
    destruct (nth_error tally (g - st)) as [v|] eqn:N.
    + f_equal. symmetry. apply nth_error_nth. auto.
    + apply nth_error_None in N. rewrite nth_overflow in E by lia. congruence.
  - intros v' (a & key & b & tally & k & -> & Hne & HS & HN & ->).
    apply fold_max_ge. apply in_map_iff. exists (length a, length a + length key). split.
    + unfold span_value. simpl. rewrite (substring_occ _ a key b eq_refl), HS.
      unfold contrib. rewrite (proj2 (Nat.leb_le _ _)) by lia.
      replace (length a + k - length a) with k by lia. apply nth_error_nth. auto.
    + apply spans_spec. rewrite !app_length.
      destruct key; [congruence|]. simpl. lia.
Qed.

(** * break_points *)
Theorem break_points_spec t word : wf_patterns (h_patterns t) ->
  exists bs, break_points t word = Ok bs /\ length bs = length word - 1 /\
    forall i, i + 1 < length word ->
    exists v, max_value (h_patterns t) ([46%N] ++ word ++ [46%N]) (i + 2) v /\
      (nth i bs false = true <->
        Nat.odd v = true /\ h_left t <= i + 1 /\ h_right t <= length word - (i + 1)).
Proof.
  intros Hwf. unfold break_points.
  set (w := [46%N] ++ word ++ [46%N]).
  assert (HLw : length w = length word + 2) by (unfold w; rewrite !app_length; simpl; lia).
  destruct (Nat.ltb_spec (length word) 2).
  { exists []. split; auto. split; [simpl; lia|]. intros i Hi. lia. }
  destruct (Nat.ltb_spec (length word) (h_left t + h_right t)).
  { exists (repeat false (length word - 1)). split; auto. split; [apply repeat_length|].
    intros i Hi. eexists. split; [apply fold_max_value; auto|].
    replace (nth i (repeat false (length word - 1)) false) with false.
    - split; [discriminate|]. lia.
    - symmetry. generalize (length word - 1). clear. intros n; revert i; induction n; destruct i; simpl; auto. }
  destruct (score_loop_spec (h_patterns t) w (spans (length w)) Hwf
             (fun st en Hi => proj1 (spans_spec _ st en) Hi) (repeat 0 (length w + 1)))
    as (sc & -> & HL & HN); [apply repeat_length|].
  eexists; split; [reflexivity|]. split; [rewrite map_length, seq_length; auto|].
  intros i Hi. eexists. split; [apply fold_max_value; auto|].
  rewrite nth_map_seq by lia. rewrite HN.
  replace (nth (i + 2) (repeat 0 (length w + 1)) 0) with 0
    by (symmetry; generalize (length w + 1), (i + 2); clear; intros n; induction n; intros [|k]; simpl; auto).
  fold w. rewrite !andb_true_iff, !Nat.leb_le. intuition lia.
Qed.

(** * parse_pattern *)
Lemma set_last_snoc l x d : set_last (l ++ [x]) d = l ++ [d].
Proof.
  induction l as [|y l IH]; simpl; auto. rewrite <- IH.
  destruct (l ++ [x]) eqn:E; auto. destruct l; discriminate.
Qed.
Lemma fold_digits ds : digits_ok ds -> forall ls pre x,
  fold_left pattern_step (map fst ds) (ls, pre ++ [x]) = (ls, pre ++ [last (map snd ds) x]).
Proof.
  induction 1 as [|c d ds Hc _ IH]; intros; simpl; auto.
  rewrite Hc, set_last_snoc, IH. do 3 f_equal.
  destruct ds as [|[c1 d1] ds']; auto. simpl. clear.
  revert d1. induction ds' as [|[c2 d2] r IH]; intros; simpl in *; auto.
Qed.
Lemma fold_pattern p ls t : pat_spec p ls t -> forall ls0 pre,
  fold_left pattern_step p (ls0, pre ++ [0]) = (ls0 ++ ls, pre ++ t).
Proof.
  induction 1 as [ds Hd|ds c p ls t Hd Hc _ IH]; intros.
  - rewrite fold_digits by auto. rewrite app_nil_r. reflexivity.
  - rewrite fold_left_app, fold_digits by auto. simpl. rewrite Hc.
    rewrite IH. rewrite <- !app_assoc. reflexivity.
Qed.
Lemma pat_spec_exists p : exists ls t, pat_spec p ls t.
Proof.
  induction p as [|c p (ls & t & H)].
  - exists [], [0]. apply (ps_last [] do_nil).
  - destruct (to_digit10 c) as [d|] eqn:E.
    + destruct H as [ds Hd|ds c0 p ls t Hd Hc H].
      * exists [], [last (map snd ((c, d) :: ds)) 0]. apply (ps_last ((c, d) :: ds)). constructor; auto.
      * exists (c0 :: ls), (last (map snd ((c, d) :: ds)) 0 :: t).
        apply (ps_more ((c, d) :: ds)); auto. constructor; auto.
    + exists (c :: ls), (0 :: t). apply (ps_more [] c p ls t do_nil E H).
Qed.
Lemma pat_spec_len p ls t : pat_spec p ls t -> length t = S (length ls).
Proof. induction 1; simpl; auto. Qed.

Theorem parse_pattern_spec p :
  exists ls t, pat_spec p ls t /\ length t = S (length ls) /\
    parse_pattern p = if forallb (Nat.eqb 0) t then None else Some (ls, t).
Proof.
  destruct (pat_spec_exists p) as (ls & t & H). exists ls, t. split; auto.
  split; [eapply pat_spec_len; eauto|].
  unfold parse_pattern. pose proof (fold_pattern p ls t H [] []) as E. simpl in E.
  match goal with |- context [fold_left ?f ?l ?i] => replace (fold_left f l i) with (ls, t) by (symmetry; exact E) end.
  reflexivity.
Qed.

(** * parse *)
Section ParseProofs.
Variable trim : str -> str.
Variable u8n l1n : str -> bool.
Variable pu : str -> option nat.
Notation parse_line := (parse_line trim u8n l1n pu).
Notation parse_lines := (parse_lines trim u8n l1n pu).

Lemma parse_line_wf n l t t' : wf_patterns (h_patterns t) -> parse_line n l t = inr t' ->
  wf_patterns (h_patterns t').
Proof.
  intros Hwf. unfold HyphenationModel.parse_line.
  repeat match goal with |- context [match ?x with _ => _ end] => destruct x eqn:? end;
    intros E; inversion E; subst; auto; simpl.
  intros key tally [F|F]; [|eauto]. inversion F; subst.
  match goal with H : parse_pattern ?l = Some _ |- _ =>
    destruct (parse_pattern_spec l) as (ls & tt & _ & HL & EP); rewrite EP in H;
    destruct (forallb (Nat.eqb 0) tt); inversion H; subst; auto end.
Qed.
Lemma parse_lines_wf ls : forall n t t', wf_patterns (h_patterns t) -> parse_lines n ls t = inr t' ->
  wf_patterns (h_patterns t').
Proof.
  induction ls as [|l r IH]; simpl; intros n t t' Hwf H; [inversion H; subst; auto|].
  destruct (parse_line n l t) as [e|t1] eqn:E; [discriminate|].
  eapply IH; [eapply parse_line_wf; eauto|eauto].
Qed.
Theorem hyph_parse_wf ls t : hyph_parse trim u8n l1n pu ls = inr t -> wf_patterns (h_patterns t).
Proof. apply parse_lines_wf. intros ? ? []. Qed.

(** A line that is a pattern line: not blank, not a comment, not a header. *)
Definition pattern_line (n : nat) (raw : str) : Prop :=
  trim raw <> [] /\
  ~ (n = 0 /\ (u8n (trim raw) = true \/ l1n (trim raw) = true)) /\
  hd_error (trim raw) <> Some 35%N /\ hd_error (trim raw) <> Some 37%N /\
  strip_prefix LEFTHYPHENMIN (trim raw) = None /\ strip_prefix RIGHTHYPHENMIN (trim raw) = None.

(** The patterns of a parsed file, in order of the file. *)
Inductive file_patterns : nat -> list str -> list (str * list nat) -> Prop :=
| fp_nil n : file_patterns n [] []
| fp_skip n l r ps : ~ pattern_line n l -> file_patterns (S n) r ps -> file_patterns n (l :: r) ps
| fp_pat n l r ls t ps : pattern_line n l -> pat_spec (trim l) ls t -> forallb (Nat.eqb 0) t = false ->
    file_patterns (S n) r ps -> file_patterns n (l :: r) ((ls, t) :: ps).

Lemma parse_line_cases n l t t' : parse_line n l t = inr t' ->
  (~ pattern_line n l /\ h_patterns t' = h_patterns t) \/
  (pattern_line n l /\ exists ls tl, pat_spec (trim l) ls tl /\ forallb (Nat.eqb 0) tl = false /\
     h_patterns t' = (ls, tl) :: h_patterns t).
Proof.
  unfold HyphenationModel.parse_line, pattern_line.
  destruct (trim l) as [|c0 rest] eqn:ET.
  { intros H; inversion H; subst. left. split; auto. tauto. }
  destruct (Nat.eqb n 0 && u8n (c0 :: rest))%bool eqn:B1.
  { intros H; inversion H; subst. left. split; auto. apply andb_true_iff in B1 as [B B1].
    apply Nat.eqb_eq in B. tauto. }
  destruct (Nat.eqb n 0 && l1n (c0 :: rest))%bool eqn:B2; [discriminate|].
  destruct (N.eqb c0 35 || N.eqb c0 37)%bool eqn:B3.
  { intros H; inversion H; subst. left. split; auto. simpl. apply orb_true_iff in B3.
    rewrite !N.eqb_eq in B3. intros (_ & _ & A & B & _). destruct B3; subst; congruence. }
  destruct (strip_prefix LEFTHYPHENMIN (c0 :: rest)) eqn:B4.
  { destruct (pu s); [|discriminate]. intros H; inversion H; subst. left. split; auto.
    intros (_ & _ & _ & _ & A & _). discriminate. }
  destruct (strip_prefix RIGHTHYPHENMIN (c0 :: rest)) eqn:B5.
  { destruct (pu s); [|discriminate]. intros H; inversion H; subst. left. split; auto.
    intros (_ & _ & _ & _ & _ & A). discriminate. }
  destruct (parse_pattern_spec (c0 :: rest)) as (ls & tt & HP & _ & EP). rewrite EP.
  destruct (forallb (Nat.eqb 0) tt) eqn:B6; [discriminate|].
  intros H; inversion H; subst. right. split.
  - split; [discriminate|]. apply orb_false_iff in B3 as [B3 B3'].
    apply N.eqb_neq in B3. apply N.eqb_neq in B3'. simpl.
    split. { intros [Hn [Hu|Hu]]; subst; simpl in *; congruence. }
    repeat split; auto; congruence.
  - exists ls, tt. auto.
Qed.

Theorem parse_lines_patterns ls : forall n t t', parse_lines n ls t = inr t' ->
  exists ps, file_patterns n ls ps /\ h_patterns t' = rev ps ++ h_patterns t.
Proof.
  induction ls as [|l r IH]; simpl; intros n t t' H.
  - inversion H; subst. exists []. split; [constructor|auto].
  - destruct (parse_line n l t) as [e|t1] eqn:E; [discriminate|].
    destruct (IH _ _ _ H) as (ps & HF & EP).
    destruct (parse_line_cases n l t t1 E) as [[Hn Ep]|[Hp (l0 & tl & Hs & Hz & Ep)]].
    + exists ps. split; [apply fp_skip; auto|]. congruence.
    + exists ((l0, tl) :: ps). split; [apply fp_pat; auto|].
      rewrite EP, Ep. simpl. rewrite <- app_assoc. reflexivity.
Qed.
Theorem hyph_parse_patterns ls t : hyph_parse trim u8n l1n pu ls = inr t ->
  exists ps, file_patterns 0 ls ps /\ h_patterns t = rev ps.
Proof.
  intros H. destruct (parse_lines_patterns ls 0 _ t H) as (ps & H1 & H2).
  exists ps. split; auto. simpl in H2. rewrite app_nil_r in H2. auto.
Qed.
End ParseProofs.
