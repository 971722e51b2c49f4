(** Properties of reading table files and their includes: C38. *)
From Coq Require Import Strings.String.
From Coq Require Import List.
From Verif Require Import Base BaseProofs RuleModel ParserModel LineSpec TableSpec IncludeModel IncludeSpec IncludeProofs PropTableText PipelineSpec.

Lemma start_ok ws fs file : go_ok ws fs (table_expanded ws fs) (met ws fs []) file.
Proof. apply (expanded_ok ws fs 65 [] file); [split; [constructor|cbn; lia]|cbn; lia]. Qed.

(** ** C38 *)

(** Reading a table file with its includes ends, whatever the file system. *)
Theorem C38_ends : forall ws fs file, table_expanded ws fs file <> None.
Proof. intros ws fs file. destruct (start_ok ws fs file) as (res & E & _). congruence. Qed.
Print Assumptions C38_ends.

(** If it gives rules, they are those of the table with every include replaced by the rules
    of the included table, in this order; nothing is wrong on any chain of includes, no
    table includes itself, directly or not, and no chain is longer than 64 tables. *)
Theorem C38_rules : forall ws fs file out, table_expanded ws fs file = Some (inl out) ->
  expands ws fs file out /\
  forall chain g, reached ws fs file chain g -> followed chain /\ forall e, ~ wrong ws fs chain g e.
Proof.
  intros ws fs file out H. destruct (start_ok ws fs file) as (res & E & Er & R). rewrite H in E. injection E as <-. split; [exact R|].
  assert (NW : forall chain g, reached ws fs file chain g -> followed chain -> forall e, ~ wrong ws fs chain g e).
  { intros chain g Re F e W. apply (Er e). exists chain, g. split; [apply reached_iff, Re|auto]. }
  intros chain g Re. assert (F : followed chain); [|split; [exact F|apply NW; assumption]].
  induction Re as [|chain f path canonical rules n g Re IH L C I D]; [split; [constructor|cbn; lia]|].
  apply followed_snoc. split; [exact IH|]. destruct (Nat.lt_ge_cases (length chain) 64) as [LT|GE].
  - split; [exact LT|]. intros IN. apply (NW _ _ Re IH (TCircular (chain ++ [canonical]))). eapply wr_circular; eassumption.
  - exfalso. apply (NW _ _ Re IH (TTooDeep 64)). eapply wr_deep; eassumption.
Qed.
Print Assumptions C38_rules.

(** Otherwise it gives errors, at least one, and they are exactly what is wrong at the ends
    of the chains of includes. *)
Theorem C38_errors : forall ws fs file errors, table_expanded ws fs file = Some (inr errors) ->
  errors <> [] /\
  forall e, In e errors <-> exists chain g, reached ws fs file chain g /\ followed chain /\ wrong ws fs chain g e.
Proof.
  intros ws fs file errors H. destruct (start_ok ws fs file) as (res & E & Er & R). rewrite H in E. injection E as <-. split; [exact R|].
  intros e. rewrite (Er e). unfold met. split; intros (chain & g & V & Q); exists chain, g; (split; [apply reached_iff, V|exact Q]).
Qed.
Print Assumptions C38_errors.

(** It gives rules exactly when nothing is wrong. *)
Theorem C38_when : forall ws fs file,
  (exists out, table_expanded ws fs file = Some (inl out)) <->
  (forall chain g e, reached ws fs file chain g -> followed chain -> ~ wrong ws fs chain g e).
Proof.
  intros ws fs file. split.
  - intros (out & H) chain g e Re _. apply (proj2 (C38_rules _ _ _ _ H)), Re.
  - intros H. destruct (table_expanded ws fs file) as [[out|errors]|] eqn:E; [eauto| |destruct (C38_ends _ _ _ E)].
    exfalso. destruct (C38_errors _ _ _ _ E) as [N Q]. destruct errors as [|e es]; [congruence|].
    destruct (proj1 (Q e) (or_introl eq_refl)) as (chain & g & Re & F & W). apply (H chain g e Re F W).
Qed.
Print Assumptions C38_when.

(** The substitution determines the rules. *)
Scheme expands_mut := Minimality for expands Sort Prop
with substituted_mut := Minimality for substituted Sort Prop.
Theorem C38_substitution_determined : forall ws fs file out1 out2,
  expands ws fs file out1 -> expands ws fs file out2 -> out1 = out2.
Proof.
  intros ws fs file out1 out2 H. revert out2. revert file out1 H.
  apply (expands_mut ws fs
    (fun file out => forall out2, expands ws fs file out2 -> out = out2)
    (fun path rules out => forall out2, substituted ws fs path rules out2 -> out = out2)).
  - intros file path canonical rules out L C _ IH out2 E. inversion E; subst. destruct (located_one _ _ _ _ _ _ L H). subst.
    match goal with Q : contents ws fs path _ |- _ => pose proof (contents_one _ _ _ _ _ C Q) end. subst. auto.
  - intros path out2 E. inversion E; subst. reflexivity.
  - intros path n r rules out N _ IH out2 E. inversion E; subst; try (destruct (N _ eq_refl)). f_equal. auto.
  - intros path n file dictionary rules out D F _ IH out2 E. inversion E; subst.
    + match goal with Q : forall _, _ <> _ |- _ => destruct (Q _ eq_refl) end.
    + f_equal; [congruence|auto].
    + congruence.
  - intros path n file mid rules out D _ IH1 _ IH2 out2 E. inversion E; subst.
    + match goal with Q : forall _, _ <> _ |- _ => destruct (Q _ eq_refl) end.
    + congruence.
    + f_equal; auto.
Qed.
Print Assumptions C38_substitution_determined.

(** A table that includes itself, directly or not, through at most 64 tables, is reported:
    one of the errors is a chain of tables that ends with one of its members. *)
Lemma cycle_met ws fs file chain g : reached ws fs file chain g -> length chain <= 64 ->
  followed chain \/ exists chain' g' path c, reached ws fs file chain' g' /\ followed chain' /\ located fs g' path c /\ length chain' < 64 /\ In c chain'.
Proof.
  induction 1 as [|chain f path canonical rules n g Re IH L C I D]; intros LE; [left; split; [constructor|cbn; lia]|].
  rewrite app_length in LE. cbn [length] in LE. assert (LE' : length chain < 64) by lia. clear LE. destruct (IH (Nat.lt_le_incl _ _ LE')) as [F|Q]; [|right; exact Q].
  destruct (in_dec (list_eq_dec N.eq_dec) canonical chain) as [IN|NI].
  - right. exists chain, f, path, canonical. auto.
  - left. apply followed_snoc. auto.
Qed.
Theorem C38_cycles : forall ws fs file chain g path canonical,
  reached ws fs file chain g -> located fs g path canonical -> In canonical chain -> length chain < 64 ->
  exists errors, table_expanded ws fs file = Some (inr errors) /\
    exists before again, In (TCircular (before ++ [again])) errors /\ In again before.
Proof.
  intros ws fs file chain g path canonical Re L I LT.
  assert (Q : exists chain' g' p c, reached ws fs file chain' g' /\ followed chain' /\ located fs g' p c /\ length chain' < 64 /\ In c chain').
  { destruct (cycle_met _ _ _ _ _ Re (Nat.lt_le_incl _ _ LT)) as [F|Q]; [|exact Q]. exists chain, g, path, canonical. auto. }
  clear - Q. destruct Q as (chain & g & p & c & Re & F & L & LT & I).
  destruct (table_expanded ws fs file) as [[out|errors]|] eqn:E; [| |destruct (C38_ends _ _ _ E)].
  - destruct (proj2 (C38_rules _ _ _ _ E) _ _ Re) as [_ N]. destruct (N (TCircular (chain ++ [c]))). eapply wr_circular; eassumption.
  - exists errors. split; [reflexivity|]. exists chain, c. split; [|exact I]. apply (C38_errors _ _ _ _ E). exists chain, g. split; [exact Re|]. split; [exact F|].
    eapply wr_circular; eassumption.
Qed.
Print Assumptions C38_cycles.

(** A chain of more than 64 different tables is an error too. *)
Theorem C38_depth : forall ws fs file chain g path canonical,
  reached ws fs file chain g -> located fs g path canonical -> NoDup chain -> length chain = 64 ->
  exists errors, table_expanded ws fs file = Some (inr errors) /\ In (TTooDeep 64) errors.
Proof.
  intros ws fs file chain g path canonical Re L N LE. assert (F : followed chain) by (split; [exact N|rewrite LE; lia]).
  assert (W : wrong ws fs chain g (TTooDeep 64)) by (eapply wr_deep; [exact L|rewrite LE; lia]).
  destruct (table_expanded ws fs file) as [[out|errors]|] eqn:E; [| |destruct (C38_ends _ _ _ E)].
  - destruct (proj2 (C38_rules _ _ _ _ E) _ _ Re) as [_ Q]. destruct (Q _ W).
  - exists errors. split; [reflexivity|]. apply (C38_errors _ _ _ _ E). exists chain, g. auto.
Qed.
Print Assumptions C38_depth.

(** A translator for several tables has the rules of the first, then those of the second,
    and so on; if a table has errors these are the errors of the first such table. *)
Theorem C38_several_tables : forall ws fs files,
  (forall out, tables_expanded ws fs files = Some (inl out) <->
     exists outs, Forall2 (fun f o => table_expanded ws fs f = Some (inl o)) files outs /\ out = List.concat outs) /\
  (forall errors, tables_expanded ws fs files = Some (inr errors) <->
     exists good bad rest, files = good ++ bad :: rest /\
       Forall (fun f => exists o, table_expanded ws fs f = Some (inl o)) good /\ table_expanded ws fs bad = Some (inr errors)).
Proof.
  intros ws fs. induction files as [|f files [IH1 IH2]].
  - split.
    + intros out. cbn. split; [intros [= <-]; exists []; split; [constructor|reflexivity]|]. intros (outs & F & ->). inversion F. reflexivity.
    + intros errors. cbn. split; [discriminate|]. intros (good & bad & rest & E & _). destruct good; discriminate.
  - cbn [tables_expanded]. destruct (table_expanded ws fs f) as [[o|es]|] eqn:E; [| |destruct (C38_ends _ _ _ E)].
    + split.
      * intros out. split.
        -- destruct (tables_expanded ws fs files) as [[more|es]|] eqn:T; try discriminate. intros [= <-].
           destruct (proj1 (IH1 more) eq_refl) as (outs & F & ->). exists (o :: outs). split; [constructor; assumption|reflexivity].
        -- intros (outs & F & ->). inversion F as [|? o' ? outs' E' F']; subst. rewrite E in E'. injection E' as <-.
           rewrite (proj2 (IH1 (List.concat outs')) (ex_intro _ outs' (conj F' eq_refl))). reflexivity.
      * intros errors. split.
        -- destruct (tables_expanded ws fs files) as [[more|es]|] eqn:T; try discriminate. intros [= <-].
           destruct (proj1 (IH2 es) eq_refl) as (good & bad & rest & -> & G & B). exists (f :: good), bad, rest. split; [reflexivity|]. split; [constructor; eauto|exact B].
        -- intros (good & bad & rest & Q & G & B). destruct good as [|f' good]; cbn [app] in Q; injection Q as -> ->; [congruence|].
           inversion G; subst. rewrite (proj2 (IH2 errors)); [reflexivity|]. exists good, bad, rest. auto.
    + split.
      * intros out. split; [discriminate|]. intros (outs & F & ->). inversion F; subst. congruence.
      * intros errors. split.
        -- intros [= <-]. exists [], f, files. split; [reflexivity|]. split; [constructor|exact E].
        -- intros (good & bad & rest & Q & G & B). destruct good as [|f' good]; cbn [app] in Q; injection Q as -> ->; [congruence|].
           inversion G as [|? ? (o & O) _]; subst. congruence.
Qed.
Print Assumptions C38_several_tables.

(** An inline table: its includes are substituted in the same way, and what goes wrong goes
    wrong at the end of a chain that starts with one of its includes. *)
Theorem C38_inline : forall ws fs text,
  exists res, inline_expanded ws fs text = Some res /\
  match res with
  | inl out => exists rules, parse_table ws text = inl rules /\ substituted ws fs None rules out
  | inr errors => errors <> [] /\ forall e, In e errors <->
      (exists n pe es, parse_table ws text = inr es /\ In (n, pe) es /\ e = TParse None n pe) \/
      (exists rules n g, parse_table ws text = inl rules /\ In (n, RInclude g) rules /\
         (if is_dic fs g then find_file fs g = None /\ e = THyphenationNotFound g
          else exists chain h, reached ws fs g chain h /\ followed chain /\ wrong ws fs chain h e))
  end.
Proof.
  intros ws fs text. unfold inline_expanded, table_of_text. destruct (parse_table ws text) as [rules|es] eqn:P.
  - destruct (expand_list ws fs (fun f => table_expanded ws fs f) (met ws fs []) None rules) as (res & E1 & E2 & E3).
    { intros n g _ _. apply start_ok. }
    exists res. split; [exact E1|]. destruct res as [out|errors].
    + exists rules. auto.
    + split; [exact E3|]. intros e. rewrite (E2 e). unfold met. split.
      * intros (n & g & I & Q). right. exists rules, n, g. split; [reflexivity|]. split; [exact I|]. destruct (is_dic fs g); [exact Q|].
        destruct Q as (chain & h & V & Q). exists chain, h. split; [apply reached_iff, V|exact Q].
      * intros [(n & pe & es & Q & _)|(rules' & n & g & [= <-] & I & Q)]; [discriminate|]. exists n, g. split; [exact I|]. destruct (is_dic fs g); [exact Q|].
        destruct Q as (chain & h & V & Q). exists chain, h. split; [apply reached_iff, V|exact Q].
  - eexists. split; [reflexivity|]. cbn beta iota. split.
    + destruct es; [|discriminate]. unfold parse_table in P. destruct (bad_lines _); discriminate.
    + intros e. rewrite in_map_iff. split.
      * intros ([n pe] & <- & I). left. exists n, pe, es. auto.
      * intros [(n & pe & es' & [= <-] & I & ->)|(rules & n & g & Q & _)]; [|discriminate]. exists (n, pe). auto.
Qed.
Print Assumptions C38_inline.

(** A table in memory: the rules of the text, if there is no include among them. *)
Theorem C38_in_memory : forall ws text,
  (forall rules, parse_table ws text = inl rules -> (forall n file, ~ In (n, RInclude file) rules) ->
     exists out, source_rules ws text = inl out /\ map a_rule out = map snd rules) /\
  (forall rules n file, parse_table ws text = inl rules -> In (n, RInclude file) rules ->
     source_rules ws text = inr [TIncludesInMemory]) /\
  (forall errors, parse_table ws text = inr errors ->
     source_rules ws text = inr (map (fun x => TParse None (fst x) (snd x)) errors)).
Proof.
  intros ws text. unfold source_rules, table_of_text. split; [|split].
  - intros rules -> N. destruct (existsb is_include _) eqn:E.
    + exfalso. apply existsb_exists in E. destruct E as (a & I & Q). apply in_map_iff in I. destruct I as ([n r] & <- & I).
      unfold is_include in Q. cbn [a_rule snd] in Q. destruct r; try discriminate. destruct (N n file I).
    + eexists. split; [reflexivity|]. rewrite map_map. reflexivity.
  - intros rules n file -> I. replace (existsb is_include _) with true; [reflexivity|]. symmetry. apply existsb_exists.
    eexists. split; [apply in_map_iff; exists (n, RInclude file); split; [reflexivity|exact I]|reflexivity].
  - intros errors ->. reflexivity.
Qed.
Print Assumptions C38_in_memory.

(** No rule that is read from files is marked both nofor and noback. *)
Theorem C38_marked_once : forall ws fs files out, tables_expanded ws fs files = Some (inl out) -> marked_once (map a_rule out).
Proof.
  intros ws fs files out H.
  assert (E : forall f o, expands ws fs f o -> marked_once (map a_rule o)).
  { apply (expands_mut ws fs (fun _ o => marked_once (map a_rule o))
      (fun path rules o => (forall r, In r (map snd rules) -> ~ (marked_nofor r /\ marked_noback r)) -> marked_once (map a_rule o))).
    - intros file path canonical rules o _ (text & _ & P) _ IH. apply IH. apply (C54_marked_once _ _ _ P).
    - intros path _ r [].
    - intros path n r rules o _ _ IH Q r' [<-|I]; [apply Q; left; reflexivity|]. apply IH; [|exact I]. intros r'' I'. apply Q. right. exact I'.
    - intros path n file d rules o _ _ _ IH Q r' [<-|I]; [intros [(k & K & _) _]; discriminate|]. apply IH; [|exact I]. intros r'' I'. apply Q. right. exact I'.
    - intros path n file mid rules o _ _ IH1 _ IH2 Q r'. rewrite map_app, in_app_iff. intros [I|I]; [apply IH1, I|].
      apply IH2; [|exact I]. intros r'' I'. apply Q. right. exact I'. }
  destruct (proj1 (proj1 (C38_several_tables ws fs files) out) H) as (outs & F & ->). clear H.
  induction F as [|f o files outs Q F IH]; [intros r []|]. cbn [List.concat]. intros r. rewrite map_app, in_app_iff. intros [I|I]; [|apply IH, I].
  apply (E f o (proj1 (C38_rules _ _ _ _ Q)) r I).
Qed.
Print Assumptions C38_marked_once.

(** ** Examples *)
(** a file system of a few files, where every path is its own real name *)
Definition ex_fs (files : list (str * str)) : file_system :=
  let find f := option_map snd (find (fun x => str_eqb f (fst x)) files) in
  {| find_file := fun f => match find f with Some _ => Some f | None => None end;
     canonicalize := fun p => Some p;
     read_to_string := find;
     is_dic := fun f => str_eqb (skipn (length f - 4) f) (lit ".dic") |}.
Definition ex_lines (l : list str) : str := List.concat (map (fun x => x ++ ex_newline) l).
(** a diamond: c is included by a and by b, and its rules are there twice *)
Definition ex_diamond : file_system := ex_fs
  [ (lit "top", ex_lines [lit "include a"; lit "include b"; lit "include hyph.dic"; lit "letter x 1346"]);
    (lit "a", ex_lines [lit "include c"; lit "letter a 1"]);
    (lit "b", ex_lines [lit "letter b 12"; lit "include c"]);
    (lit "c", ex_lines [lit "space \s 0"]); (lit "hyph.dic", []) ].
Example C38_example_diamond :
  table_expanded ex_ws ex_diamond (lit "top") = Some (inl
    [ mk_anchored (RSpace 32%N [10240%N] no_constraints) (Some (lit "c")) 1;
      mk_anchored (RLetter 97%N [10241%N] no_constraints) (Some (lit "a")) 2;
      mk_anchored (RLetter 98%N [10243%N] no_constraints) (Some (lit "b")) 1;
      mk_anchored (RSpace 32%N [10240%N] no_constraints) (Some (lit "c")) 1;
      mk_anchored (RIncludeHyphenation (lit "hyph.dic")) (Some (lit "top")) 3;
      mk_anchored (RLetter 120%N [10285%N] no_constraints) (Some (lit "top")) 4 ]).
Proof. vm_compute. reflexivity. Qed.
(** two tables that include each other, a missing table and a missing dictionary *)
Definition ex_cycle : file_system := ex_fs
  [ (lit "a", ex_lines [lit "include b"; lit "include m"]); (lit "b", ex_lines [lit "letter b 12"; lit "include a"; lit "include x.dic"]) ].
Example C38_example_cycle : table_expanded ex_ws ex_cycle (lit "a") =
  Some (inr [TCircular [lit "a"; lit "b"; lit "a"]; THyphenationNotFound (lit "x.dic"); TNotFound (lit "m")]).
Proof. vm_compute. reflexivity. Qed.
(** the table xx...x includes the table with one x more: a chain without end *)
Definition ex_endless : file_system :=
  {| find_file := Some; canonicalize := Some; read_to_string := fun p => Some (lit "include " ++ p ++ lit "x"); is_dic := fun _ => false |}.
Example C38_example_endless : table_expanded ex_ws ex_endless (lit "x") = Some (inr [TTooDeep 64]).
Proof. vm_compute. reflexivity. Qed.
Example C38_example_several : exists errors, tables_expanded ex_ws ex_cycle [lit "nothing"; lit "a"] = Some (inr errors) /\ errors = [TNotFound (lit "nothing")].
Proof. eexists. split; [vm_compute; reflexivity|reflexivity]. Qed.
