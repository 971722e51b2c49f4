(** Properties of metadata queries: C40. *)
From Coq Require Import Strings.String Permutation.
From Coq Require Import List.
From Verif Require Import Base BaseProofs RuleModel BrailleModel BrailleProofs OperandModel ParserModel LineSpec LineProofs TableSpec TableTextProofs MetadataModel MetadataSpec.

Lemma Forall2_in {A B} (P : A -> B -> Prop) l m : Forall2 P l m -> (forall a, In a l -> exists b, In b m /\ P a b) /\ (forall b, In b m -> exists a, In a l /\ P a b).
Proof.
  induction 1 as [|a b l m H F [IH1 IH2]]; [split; intros x []|]. split.
  - intros x [<-|I]; [exists b; split; [left; reflexivity|exact H]|]. destruct (IH1 x I) as (y & I' & Q). exists y. split; [right; exact I'|exact Q].
  - intros x [<-|I]; [exists a; split; [left; reflexivity|exact H]|]. destruct (IH2 x I) as (y & I' & Q). exists y. split; [right; exact I'|exact Q].
Qed.
Lemma property_eqb_eq a b : property_eqb a b = true <-> a = b.
Proof.
  destruct a as [a1 a2], b as [b1 b2]. unfold property_eqb. cbn [fst snd]. rewrite andb_true_iff, !str_eqb_eq. split; [intros [-> ->]; reflexivity|intros [= -> ->]; auto].
Qed.
Lemma get_in ix q p : (exists l, index_get ix q = Some l /\ In p l) <-> In (q, p) ix.
Proof.
  unfold index_get. set (m := map snd (filter (fun e => property_eqb (fst e) q) ix)).
  assert (E : In p m <-> In (q, p) ix).
  { unfold m. rewrite in_map_iff. split.
    - intros ([q' p'] & <- & I). apply filter_In in I. destruct I as [I Q]. apply property_eqb_eq in Q. cbn in Q. subst. exact I.
    - intros I. exists (q, p). split; [reflexivity|]. apply filter_In. split; [exact I|]. apply property_eqb_eq. reflexivity. }
  rewrite <- E. destruct m as [|x m]; split.
  - intros (l & Q & _). discriminate.
  - intros [].
  - intros (l & [= <-] & I). exact I.
  - intros I. exists (x :: m). auto.
Qed.
Lemma find_ok ix query : query <> [] -> exists ps, find_tables ix query = Ok ps /\
  forall p, In p ps <-> forall q, In q query -> In (q, p) ix.
Proof.
  intros N. unfold find_tables. destruct (existsb is_none (map (index_get ix) query)) eqn:E.
  - exists []. split; [reflexivity|]. intros p. split; [intros []|]. intros H. exfalso.
    apply existsb_exists in E. destruct E as (o & I & O). destruct o; [discriminate|]. apply in_map_iff in I. destruct I as (q & G & I).
    destruct (proj2 (get_in ix q p) (H q I)) as (l & G' & _). congruence.
  - assert (F : exists ls, flatten (map (index_get ix) query) = ls /\ Forall2 (fun q l => index_get ix q = Some l) query ls).
    { clear N. induction query as [|q query IH]; [exists []; split; [reflexivity|constructor]|]. cbn [map existsb] in E.
      destruct (index_get ix q) as [l|] eqn:G; [|discriminate]. destruct (IH E) as (ls & <- & F). exists (l :: flatten (map (index_get ix) query)).
      split; [cbn [map flatten]; rewrite G; reflexivity|]. constructor; assumption. }
    destruct F as (ls & -> & F). destruct F as [|q l query ls G F]; [congruence|].
    eexists. split; [reflexivity|]. intros p. rewrite filter_In, forallb_forall.
    assert (X : forall q' l', index_get ix q' = Some l' -> (In p l' <-> In (q', p) ix)).
    { intros q' l' G'. rewrite <- get_in. split; [intros I; exists l'; auto|]. intros (l2 & G2 & I). congruence. }
    assert (Y : forall l', existsb (str_eqb p) l' = true <-> In p l').
    { intros l'. rewrite existsb_exists. split; [intros (x & I & Q); apply str_eqb_eq in Q; subst; exact I|]. intros I. exists p. split; [exact I|apply str_eqb_eq; reflexivity]. }
    split.
    + intros [I A] q' [<-|I']; [apply (X _ _ G), I|]. destruct (proj1 (Forall2_in _ _ _ F) q' I') as (l' & I2 & G'). apply (X _ _ G'), Y, A, I2.
    + intros H. split; [apply (X _ _ G), H; left; reflexivity|]. intros l' I2. destruct (proj2 (Forall2_in _ _ _ F) l' I2) as (q' & I' & G').
      apply Y, (X _ _ G'), H. right. exact I'.
Qed.

(** ** Lines *)
Lemma trim_start_spaces ws g s : spaces ws g -> trim_start ws (g ++ s) = trim_start ws s.
Proof. induction 1 as [|c g B _ IH]; [reflexivity|]. cbn [app trim_start]. rewrite B. exact IH. Qed.
Lemma trim_start_not ws c s : ws c = false -> trim_start ws (c :: s) = c :: s.
Proof. intros H. cbn. rewrite H. reflexivity. Qed.
Lemma trim_ok ws x k : k <> [] -> Forall (fun c => ws c = false) k ->
  (trim ws x = k <-> exists g1 g2, x = g1 ++ k ++ g2 /\ spaces ws g1 /\ spaces ws g2).
Proof.
  intros N F. unfold trim. split.
  - intros E. destruct (trim_start_ok ws x) as (g1 & E1 & F1 & _). destruct (trim_start_ok ws (rev (trim_start ws x))) as (g2 & E2 & F2 & _).
    exists g1, (rev g2). split; [|split; [exact F1|apply Forall_rev, F2]]. rewrite E1. f_equal. rewrite <- E, <- rev_app_distr, <- E2. symmetry. apply rev_involutive.
  - intros (g1 & g2 & -> & F1 & F2). rewrite (trim_start_spaces ws g1 _ F1). destruct k as [|c k]; [congruence|].
    cbn [app]. rewrite trim_start_not by (inversion F; assumption). change (c :: k ++ g2) with ((c :: k) ++ g2). rewrite rev_app_distr.
    rewrite (trim_start_spaces ws (rev g2)) by (apply Forall_rev, F2). destruct (rev (c :: k)) as [|d r] eqn:R.
    { apply (f_equal (@length _)) in R. rewrite rev_length in R. discriminate. }
    rewrite trim_start_not; [rewrite <- R; apply rev_involutive|]. apply Forall_rev in F. rewrite R in F. inversion F. assumption.
Qed.
Lemma split_once_ok sep s a b : split_once sep s = Some (a, b) <-> s = a ++ sep :: b /\ ~ In sep a.
Proof.
  revert a b. induction s as [|c s IH]; intros a b; cbn [split_once].
  - split; [discriminate|]. intros [E _]. destruct a; discriminate.
  - destruct (N.eqb_spec c sep) as [->|NE].
    + split; [intros [= <- <-]; split; [reflexivity|intros []]|]. intros [E NI]. destruct a as [|x a]; [injection E as ->; reflexivity|].
      injection E as <- _. destruct NI. left. reflexivity.
    + split.
      * destruct (split_once sep s) as [[a' b']|]; [|discriminate]. intros [= <- <-]. destruct (proj1 (IH a' b') eq_refl) as [-> NI].
        split; [reflexivity|]. intros [Q|Q]; [congruence|contradiction].
      * intros [E NI]. destruct a as [|x a]; [injection E as E _; congruence|]. injection E as <- E.
        rewrite (proj2 (IH a b)); [reflexivity|]. split; [exact E|]. intros Q. apply NI. right. exact Q.
Qed.
Lemma graphic_ok c : is_ascii_graphic c = true <-> graphic c.
Proof. unfold is_ascii_graphic, graphic. rewrite andb_true_iff, !N.leb_le. reflexivity. Qed.
Lemma alphanumeric_graphic c : alphanumeric c -> graphic c.
Proof. unfold alphanumeric, graphic. intros [H|[H|H]]; lia. Qed.
Lemma Forall_forallb {A} (f : A -> bool) (P : A -> Prop) l : (forall a, f a = true <-> P a) -> (forallb f l = true <-> Forall P l).
Proof. intros H. rewrite forallb_forall, Forall_forall. split; intros Q x I; apply H, Q, I. Qed.
Lemma line_ok ws l k v : (forall c, graphic c -> ws c = false) -> (line_property ws l = Some (k, v) <-> states ws l k v).
Proof.
  intros WS. assert (WF : forall x, Forall graphic x -> Forall (fun c => ws c = false) x) by (intros x F; eapply Forall_impl; [|exact F]; apply WS).
  assert (AG : forall x, Forall alphanumeric x -> Forall graphic x) by (intros x F; eapply Forall_impl; [|exact F]; apply alphanumeric_graphic).
  assert (W58 : ws 58%N = false) by (apply WS; unfold graphic; lia).
  assert (NC : forall x, Forall alphanumeric x -> ~ In 58%N x).
  { intros x F I. rewrite Forall_forall in F. apply F in I. unfold alphanumeric in I. lia. }
  assert (NS : forall x, spaces ws x -> ~ In 58%N x).
  { intros x F I. unfold spaces in F. rewrite Forall_forall in F. apply F in I. congruence. }
  unfold states. split.
  - destruct l as [|c1 [|c2 r]]; cbn [line_property]; try discriminate.
    destruct (N.eqb_spec c1 35) as [->|]; [|discriminate]. destruct (N.eqb_spec c2 43) as [->|]; [|discriminate]. cbn [andb].
    destruct (split_once 58%N r) as [[key value]|] eqn:SO; [|discriminate]. apply split_once_ok in SO. destruct SO as [-> _].
    destruct (negb (is_empty (trim ws key)) && negb (is_empty (trim ws value)) && forallb is_ascii_alphanumeric (trim ws key) && forallb is_ascii_graphic (trim ws value))%bool eqn:B; [|discriminate].
    rewrite !andb_true_iff in B. destruct B as [[[B1 B2] B3] B4]. intros [= Ek Ev].
    rewrite Ek in B1, B3. rewrite Ev in B2, B4. apply (Forall_forallb _ _ _ alphanumeric_ok) in B3. apply (Forall_forallb _ _ _ graphic_ok) in B4.
    assert (Nk : k <> []) by (intros ->; discriminate). assert (Nv : v <> []) by (intros ->; discriminate).
    apply (trim_ok ws key k Nk (WF _ (AG _ B3))) in Ek. destruct Ek as (g1 & g2 & -> & G1 & G2).
    apply (trim_ok ws value v Nv (WF _ B4)) in Ev. destruct Ev as (g3 & g4 & -> & G3 & G4).
    exists g1, g2, g3, g4. split; [|auto 10]. change (lit "#+") with [35; 43]%N. change (lit ":") with [58%N]. cbn [app]. rewrite <- !app_assoc. reflexivity.
  - intros (g1 & g2 & g3 & g4 & -> & G1 & G2 & G3 & G4 & Nk & Fk & Nv & Fv).
    change (lit "#+") with [35; 43]%N. change (lit ":") with [58%N]. cbn [app line_property]. cbn [N.eqb Pos.eqb andb].
    rewrite (proj2 (split_once_ok 58%N _ (g1 ++ k ++ g2) (g3 ++ v ++ g4))).
    + assert (E1 : trim ws (g1 ++ k ++ g2) = k) by (apply (trim_ok ws _ k Nk (WF _ (AG _ Fk))); eauto).
      assert (E2 : trim ws (g3 ++ v ++ g4) = v) by (apply (trim_ok ws _ v Nv (WF _ Fv)); eauto).
      rewrite E1, E2, (proj2 (Forall_forallb _ _ _ alphanumeric_ok) Fk), (proj2 (Forall_forallb _ _ _ graphic_ok) Fv).
      destruct k; [congruence|]. destruct v; [congruence|]. reflexivity.
    + split; [rewrite <- !app_assoc; reflexivity|]. rewrite !in_app_iff. intros [I|[I|I]]; [apply (NS _ G1 I)|apply (NC _ Fk I)|apply (NS _ G2 I)].
Qed.

(** ** The index *)
Lemma file_in ws read path q p : (forall c, graphic c -> ws c = false) ->
  In (q, p) (file_entries ws read path) <-> p = path /\ exists content n l, read path = Some content /\ is_line content n l /\ states ws l (fst q) (snd q).
Proof.
  intros WS. destruct q as [k v]. unfold file_entries. destruct (read path) as [content|].
  2:{ split; [intros []|]. intros (_ & c & n & l & Q & _). discriminate. }
  rewrite in_flat_map. split.
  - intros (l & I & Q). destruct (line_property ws l) as [q|] eqn:E; [|destruct Q]. destruct Q as [[= -> ->]|[]]. split; [reflexivity|].
    apply In_nth_error in I. destruct I as (i & I). exists content, (S i), l. split; [reflexivity|]. split; [apply lines_ok, I|]. apply (line_ok ws l k v WS), E.
  - intros (-> & c & n & l & [= <-] & L & St). exists l. destruct n as [|n].
    { destruct L as (b & raw & a & _ & _ & Q & _). discriminate. }
    split; [apply lines_ok in L; eapply nth_error_In, L|]. apply (line_ok ws l k v WS) in St. rewrite St. left. reflexivity.
Qed.
Lemma dir_ok ws read entries : (exists ix, dir_entries ws read entries = Some ix /\ ~ In None entries /\ forall e, In e ix <-> exists p, In (Some p) entries /\ In e (file_entries ws read p)) \/
  (dir_entries ws read entries = None /\ In None entries).
Proof.
  induction entries as [|[p|] entries IH]; cbn [dir_entries].
  - left. exists []. split; [reflexivity|]. split; [intros []|]. intros e. split; [intros []|intros (p & [] & _)].
  - destruct IH as [(ix & -> & NN & H)|(-> & H)]; cbn [option_map].
    + left. eexists. split; [reflexivity|]. split; [intros [Q|Q]; [discriminate|exact (NN Q)]|]. intros e. rewrite in_app_iff, H. split.
      * intros [I|(p' & I & Q)]; [exists p; split; [left; reflexivity|exact I]|exists p'; split; [right; exact I|exact Q]].
      * intros (p' & [[= <-]|I] & Q); [left; exact Q|right; exists p'; auto].
    + right. split; [reflexivity|right; exact H].
  - right. split; [reflexivity|left; reflexivity].
Qed.
Definition unlisted (dirs : list (option (list (option str)))) : Prop := In None dirs \/ exists entries, In (Some entries) dirs /\ In None entries.
Lemma index_ok ws read dirs : (exists ix, build_index ws read dirs = Some ix /\ ~ unlisted dirs /\
    forall e, In e ix <-> exists entries p, In (Some entries) dirs /\ In (Some p) entries /\ In e (file_entries ws read p)) \/
  (build_index ws read dirs = None /\ unlisted dirs).
Proof.
  induction dirs as [|[entries|] dirs IH]; cbn [build_index].
  - left. exists []. split; [reflexivity|]. split; [intros [[]|(x & [] & _)]|]. intros e. split; [intros []|intros (x & p & [] & _)].
  - destruct (dir_ok ws read entries) as [(ix & -> & NN & H)|(-> & H)].
    + destruct IH as [(ix' & -> & U & H')|(-> & U)]; cbn [option_map].
      * left. eexists. split; [reflexivity|]. split.
        { intros [[Q|Q]|(x & [Q|Q] & N)]; [discriminate|apply U; left; exact Q|injection Q as <-; exact (NN N)|apply U; right; eauto]. }
        intros e. rewrite in_app_iff, H, H'. split.
        -- intros [(p & I & Q)|(x & p & I1 & I2 & Q)]; [exists entries, p; split; [left; reflexivity|auto]|exists x, p; split; [right; exact I1|auto]].
        -- intros (x & p & [[= <-]|I1] & I2 & Q); [left; exists p; auto|right; exists x, p; auto].
      * right. split; [reflexivity|]. destruct U as [U|(x & U & N)]; [left; right; exact U|right; exists x; split; [right; exact U|exact N]].
    + right. split; [reflexivity|]. right. exists entries. split; [left; reflexivity|exact H].
  - right. split; [reflexivity|]. left. left. reflexivity.
Qed.

(** ** C40 *)

(** A query with at least one condition is answered with exactly the tables that carry every
    property asked for. *)
Theorem C40_query : forall ws read dirs ix query, (forall c, graphic c -> ws c = false) ->
  build_index ws read dirs = Some ix -> query <> [] ->
  exists tables, find_tables ix query = Ok tables /\
    forall path, In path tables <-> forall k v, In (k, v) query -> carries ws read dirs path k v.
Proof.
  intros ws read dirs ix query WS B N. destruct (find_ok ix query N) as (ps & E & H). exists ps. split; [exact E|].
  intros path. rewrite H. destruct (index_ok ws read dirs) as [(ix' & B' & _ & I)|(B' & _)]; [|congruence]. rewrite B in B'. injection B' as <-.
  assert (X : forall k v, In ((k, v), path) ix <-> carries ws read dirs path k v).
  { intros k v. rewrite I. unfold carries. split.
    - intros (entries & p & I1 & I2 & Q). apply (file_in ws read p (k, v) path WS) in Q. destruct Q as (-> & content & n & l & Q). exists entries, content, n, l. tauto.
    - intros (entries & content & n & l & I1 & I2 & Q). exists entries, path. split; [exact I1|]. split; [exact I2|]. apply (file_in ws read path (k, v) path WS).
      split; [reflexivity|]. exists content, n, l. exact Q. }
  split; [intros Q k v J; apply X, Q, J|intros Q [k v] J; apply X, Q, J].
Qed.
Print Assumptions C40_query.

(** The order of the conditions does not matter. *)
Theorem C40_order : forall ix q1 q2 t1 t2, Permutation q1 q2 -> q1 <> [] ->
  find_tables ix q1 = Ok t1 -> find_tables ix q2 = Ok t2 -> forall path, In path t1 <-> In path t2.
Proof.
  intros ix q1 q2 t1 t2 P N E1 E2 path.
  assert (N2 : q2 <> []) by (intros ->; apply Permutation_sym, Permutation_nil in P; congruence).
  destruct (find_ok ix q1 N) as (p1 & F1 & H1). destruct (find_ok ix q2 N2) as (p2 & F2 & H2).
  rewrite E1 in F1. injection F1 as <-. rewrite E2 in F2. injection F2 as <-. rewrite H1, H2.
  split; intros Q q I; apply Q; [apply (Permutation_in _ (Permutation_sym P) I)|apply (Permutation_in _ P I)].
Qed.
Print Assumptions C40_order.

(** The tables can be indexed exactly when all directories and their entries can be listed;
    files that cannot be read do not matter. *)
Theorem C40_index : forall ws read dirs,
  (exists ix, build_index ws read dirs = Some ix) <->
  ~ In None dirs /\ forall entries, In (Some entries) dirs -> ~ In None entries.
Proof.
  intros ws read dirs. destruct (index_ok ws read dirs) as [(ix & B & U & _)|(B & U)]; rewrite B; split.
  - intros _. split; [intros Q; apply U; left; exact Q|]. intros entries I N. apply U. right. eauto.
  - intros _. eauto.
  - intros (ix & Q). discriminate.
  - intros [N1 N2]. destruct U as [U|(entries & I & N)]; [contradiction|destruct (N2 _ I N)].
Qed.
Print Assumptions C40_index.

(** A query without conditions panics. *)
Theorem C40_empty_query_refuted : forall ix, find_tables ix [] = Panic.
Proof. reflexivity. Qed.
Print Assumptions C40_empty_query_refuted.

(** The conditions of a query on the command line. *)
Lemma asks_ok part q : asks part q <-> exists rest, split_on 61%N part = fst q :: snd q :: rest.
Proof.
  destruct q as [k v]. unfold asks. cbn [fst snd]. change (lit "=") with [61%N]. split.
  - intros (more & -> & Nk & Nv & M). assert (X : exists rest, split_on 61%N (v ++ more) = v :: rest).
    { destruct M as [->|(m & ->)]; [rewrite app_nil_r; exists []; apply split_clean_one, Nv|].
      exists (split_on 61%N m). clear Nk. induction v as [|c v IH]; [reflexivity|]. cbn [app split_on].
      destruct (N.eqb_spec c 61) as [->|NE]; [destruct Nv; left; reflexivity|]. cbn [app] in IH. rewrite IH; [reflexivity|]. intros I. apply Nv. right. exact I. }
    destruct X as (rest & X). exists rest. induction k as [|c k IH]; cbn [app split_on].
    + rewrite N.eqb_refl, X. reflexivity.
    + destruct (N.eqb_spec c 61) as [->|NE]; [destruct Nk; left; reflexivity|]. cbn [app] in IH. rewrite IH; [reflexivity|]. intros I. apply Nk. right. exact I.
  - intros (rest & E). pose proof (split_join 61%N part) as J. rewrite E in J.
    assert (CL : forall x, In x (k :: v :: rest) -> ~ In 61%N x) by (intros x I; rewrite <- E in I; eapply split_clean, I).
    exists (match rest with [] => [] | p :: ps => 61%N :: joins 61%N (p :: ps) end).
    split; [|split; [apply CL; left; reflexivity|split; [apply CL; right; left; reflexivity|]]].
    + rewrite <- J. destruct rest; cbn [joins app flat_map]; rewrite ?app_nil_r; reflexivity.
    + destruct rest as [|p ps]; [left; reflexivity|right]. eexists. reflexivity.
Qed.
Lemma parts_ok l q : each_part l = Ok q <-> Forall2 asks l q.
Proof.
  revert q. induction l as [|s l IH]; intros q; cbn [each_part].
  - split; [intros [= <-]; constructor|]. intros F. inversion F. reflexivity.
  - split.
    + destruct (split_on 61%N s) as [|k [|v rest]] eqn:E; try discriminate. destruct (each_part l) as [q'| |] eqn:E'; cbn [bind]; try discriminate.
      intros [= <-]. constructor; [apply asks_ok; exists rest; exact E|apply IH; reflexivity].
    + intros F. inversion F as [|? [k v] ? q' A F']; subst. apply asks_ok in A. destruct A as (rest & A). cbn [fst snd] in A. rewrite A.
      rewrite (proj2 (IH q') F'). reflexivity.
Qed.
Theorem C40_command_line : forall s,
  (forall query, query_of s = Ok query <-> asks_all s query) /\
  (forall query, asks_all s query -> query <> []) /\
  (query_of s = Panic <-> forall query, ~ asks_all s query).
Proof.
  intros s. assert (A : forall query, query_of s = Ok query <-> asks_all s query).
  { intros query. unfold query_of, asks_all. rewrite parts_ok. split.
    - intros F. exists (split_on 44%N s). split; [apply split_nonempty|]. split; [symmetry; apply split_join|]. split; [|exact F].
      apply Forall_forall. intros p I. eapply split_clean, I.
    - intros (parts & N & -> & C & F). destruct parts as [|p ps]; [congruence|]. rewrite split_of_join by exact C. exact F. }
  split; [exact A|]. split.
  - intros query (parts & N & _ & _ & F) ->. inversion F. congruence.
  - split; [intros E query Q; apply A in Q; congruence|]. intros N. destruct (query_of s) as [q| |] eqn:E; [destruct (N q); apply A; reflexivity|reflexivity|].
    exfalso. clear - E. unfold query_of in E. revert E. generalize (split_on 44%N s). induction l as [|x l IH]; cbn [each_part]; [discriminate|].
    destruct (split_on 61%N x) as [|k [|v rest]]; try discriminate. destruct (each_part l); cbn [bind]; try discriminate. auto.
Qed.
Print Assumptions C40_command_line.

(** ** Examples *)
Definition ex_meta_ws (c : char) : bool := mem c [9; 10; 11; 12; 13; 32; 133; 160]%N.
Example C40_ws : forall c, graphic c -> ex_meta_ws c = false.
Proof.
  intros c [H1 H2]. unfold ex_meta_ws. destruct (mem c _) eqn:E; [|reflexivity]. apply mem_In in E.
  repeat (destruct E as [<-|E]; [lia|]). destruct E.
Qed.
Definition ex_meta_read (p : str) : option str :=
  if str_eqb p (lit "en.tbl") then Some (lit "#+ language : en" ++ [10%N] ++ lit "#+grade:2" ++ [10%N] ++ lit "letter a 1")
  else if str_eqb p (lit "de.tbl") then Some (lit "#+language:de" ++ [13; 10]%N ++ lit "#+grade:2")
  else None.
Definition ex_meta_dirs : list (option (list (option str))) := [Some [Some (lit "en.tbl"); Some (lit "x")]; Some [Some (lit "de.tbl")]].
Example C40_example :
  query_command ex_meta_ws ex_meta_read ex_meta_dirs (lit "grade=2") = Ok (Some [lit "en.tbl"; lit "de.tbl"]) /\
  query_command ex_meta_ws ex_meta_read ex_meta_dirs (lit "grade=2,language=de") = Ok (Some [lit "de.tbl"]) /\
  query_command ex_meta_ws ex_meta_read ex_meta_dirs (lit "grade=3,language=de") = Ok (Some []) /\
  query_command ex_meta_ws ex_meta_read ex_meta_dirs (lit "grade") = Panic /\
  query_command ex_meta_ws ex_meta_read (None :: ex_meta_dirs) (lit "grade=2") = Ok None.
Proof. vm_compute. repeat split. Qed.
(** A line with a hyphen in its key, or a value of two words, states nothing. *)
Example C40_example_key : line_property ex_meta_ws (lit "#+display-name:English") = None /\ line_property ex_meta_ws (lit "#+name:US English") = None.
Proof. vm_compute. auto. Qed.
