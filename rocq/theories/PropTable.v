(** C34 (display tables), C36 ([=] operands), C43 (definitions and classes). *)
From Verif Require Import Base BaseProofs RuleModel TranslationModel TranslationProofs
  TableModel TableProofs.

(** [wins compat l k v] (TableProofs.v): [v] belongs to the first pair of [l] with key [k]
    in the default build, to the last one when the feature [backwards_compatibility] is
    switched off.  [display_pairs d rules]: the (from, to) pairs of the display rules of
    direction [d], in table order. *)
Theorem C34_display : forall compat rules d input,
  let out := display_translate (display_compile compat rules d) input in
  length out = length input /\
  forall i c, nth_error input i = Some c ->
    exists x, nth_error out i = Some x /\
      (wins compat (display_pairs d rules) c x \/
       ((forall y, ~ In (c, y) (display_pairs d rules)) /\ x = c)).
Proof.
  intros compat rules d input out. split; [apply map_length|].
  intros i c H. unfold out, display_translate. rewrite nth_error_map, H. simpl.
  eexists. split; [reflexivity|].
  pose proof (display_tracks compat d rules) as T.
  destruct (assoc c (display_compile compat rules d)) as [x|] eqn:E.
  - left. apply T. exact E.
  - right. split; auto. apply (tracks_None compat _ _ c T). exact E.
Qed.
Print Assumptions C34_display.

(** Characters are mapped independently of their neighbours. *)
Theorem C34_display_concat : forall compat rules d a b,
  display_translate (display_compile compat rules d) (a ++ b) =
  display_translate (display_compile compat rules d) a ++
  display_translate (display_compile compat rules d) b.
Proof. intros. apply map_app. Qed.
Print Assumptions C34_display_concat.

Example C34_example :
  let k := no_constraints in
  let rules := [RDisplay 97 10241 k; RDisplay 98 10241 k; RDisplay 99 10243 (mk_constraints true false false);
                RDisplay 97 10249 k]%N in
  display_translate (display_compile true rules Forward) [10241; 10243; 120]%N = [97; 10243; 120]%N /\
  display_translate (display_compile false rules Forward) [10241; 10243; 120]%N = [98; 10243; 120]%N /\
  display_translate (display_compile true rules Backward) [97; 99]%N = [10241; 10243]%N.
Proof. vm_compute. auto. Qed.

(** [spells d chars out]: [out] is the concatenation of the definitions in [d] of the
    characters of [chars]. *)
Theorem C36_implicit_dots : forall defs chars,
  (forall out, braille_to_unicode defs Implicit chars = TOk out <-> spells defs chars out) /\
  (forall e, braille_to_unicode defs Implicit chars = TErr e <->
     exists a c b, chars = a ++ c :: b /\ e = ImplicitCharacterNotDefined c /\
                   defs_get defs c = None /\ (forall x, In x a -> defs_get defs x <> None)) /\
  braille_to_unicode defs Implicit chars <> TPanic /\
  (forall cells, braille_to_unicode defs (Explicit cells) chars = TOk cells).
Proof.
  intros defs chars. split; [|split; [|split]].
  - intros out. exact (resolve_implicit_ok defs chars out).
  - intros e. exact (resolve_implicit_err defs chars e).
  - exact (resolve_implicit_no_panic defs chars).
  - reflexivity.
Qed.
Print Assumptions C36_implicit_dots.

Theorem C36_implicit_dots_concat : forall defs a b x y,
  braille_to_unicode defs Implicit a = TOk x -> braille_to_unicode defs Implicit b = TOk y ->
  braille_to_unicode defs Implicit (a ++ b) = TOk (x ++ y).
Proof.
  intros defs a b x y Ha Hb. etransitivity; [exact (resolve_implicit_app defs a b)|].
  simpl in Ha, Hb. rewrite Ha. simpl. rewrite Hb. reflexivity.
Qed.
Print Assumptions C36_implicit_dots_concat.

Example C36_example :
  braille_to_unicode [(104, [10259]); (97, [10241])]%N Implicit [104; 97; 104]%N
    = TOk [10259; 10241; 10259]%N /\
  braille_to_unicode [(104, [10259]); (97, [10241])]%N Implicit [104; 98; 99]%N
    = TErr (ImplicitCharacterNotDefined 98%N).
Proof. vm_compute. auto. Qed.

(** The dots of a character after compilation, in either build: given by the history of
    its definitions ([dots_after], TableProofs.v: direct definitions in table order, then
    the [base] rules in table order, each copying the dots its base has at that point). *)
Theorem C43_definitions : forall alph compat rules x c s,
  context_compile alph compat rules = TOk x ->
  (defs_get (x_defs x) c = Some s <-> dots_after compat rules rules c s).
Proof. exact compile_defs. Qed.
Print Assumptions C43_definitions.

(** Default build: the first direct definition of a character is its definition,
    whatever base rules and later definitions say. *)
Theorem C43_first_definition_wins : forall alph rules x c s,
  context_compile alph true rules = TOk x ->
  first_of (explicit_defs rules) c s -> defs_get (x_defs x) c = Some s.
Proof.
  intros alph rules x c s E H. apply (compile_defs alph true rules x c s E).
  apply explicit_wins; auto. apply base_history_exists.
Qed.
Print Assumptions C43_first_definition_wins.

(** Default build: any other defined character comes from a base rule and has the dots
    of its base. *)
Theorem C43_derived_characters_inherit : forall alph rules x c s,
  context_compile alph true rules = TOk x ->
  defs_get (x_defs x) c = Some s -> (forall w, ~ In (c, w) (explicit_defs rules)) ->
  exists n b, In (RBase n c b) rules /\ defs_get (x_defs x) b = Some s.
Proof.
  intros alph rules x c s E H Hn. apply (compile_defs alph true rules x c s E) in H.
  destruct (derived_from_base rules c s H Hn) as (n & b & Hi & Hd).
  exists n, b. split; auto. apply (compile_defs alph true rules x b s E). auto.
Qed.
Print Assumptions C43_derived_characters_inherit.

(** A character is in a class iff a rule puts it there ([in_class]). *)
Theorem C43_classes : forall alph compat rules x k c,
  context_compile alph compat rules = TOk x ->
  (cls_has (x_chars x) k c = true <-> in_class compat rules k c).
Proof. exact compile_classes. Qed.
Print Assumptions C43_classes.

(** The same for the classes of braille cells ([dots_in_class]). *)
Theorem C43_dots_classes : forall alph compat rules x k y,
  context_compile alph compat rules = TOk x ->
  (cls_has (x_dots x) k y = true <-> dots_in_class alph compat rules k y).
Proof. exact compile_dots_classes. Qed.
Print Assumptions C43_dots_classes.

(** Compilation fails only because of an undefined base: never in the default build, and
    otherwise with an error that names the characters. *)
Theorem C43_undefined_base : forall alph compat rules,
  (exists x, context_compile alph compat rules = TOk x) \/
  (exists p n d b q, rules = p ++ RBase n d b :: q /\ compat = false /\
     context_compile alph compat rules = TErr (BaseCharacterNotDefined b d) /\
     forall s, ~ dots_after compat rules p b s).
Proof. exact compile_total. Qed.
Print Assumptions C43_undefined_base.

(** In the default build an undefined base is silently ignored, also when the base is
    only defined by a later base rule: the claim "a base rule whose base is undefined is
    an error" is false there. *)
Theorem C43_undefined_base_is_error_refuted : forall alph,
  exists x, context_compile alph true
      [RBase (lit "uppercase") 65 97; RBase (lit "lowercase") 97 98; RLetter 98 [10243] no_constraints]%N
    = TOk x /\
    defs_get (x_defs x) 65%N = None /\ defs_get (x_defs x) 97%N = Some [10243%N] /\
    cls_has (x_chars x) CUppercase 65%N = false.
Proof. intros alph. eexists. split; [vm_compute; reflexivity|]. vm_compute. auto. Qed.
Print Assumptions C43_undefined_base_is_error_refuted.

(** The [class] opcode has no effect: its class stays empty. *)
Theorem C43_class_opcode_refuted : forall alph,
  exists x, context_compile alph true [RLetter 97 [10241] no_constraints; RClass (lit "foo") [97]]%N = TOk x /\
    cls_get (x_chars x) (class_from (lit "foo")) = None.
Proof. intros alph. eexists. split; [vm_compute; reflexivity|]. vm_compute. auto. Qed.
Print Assumptions C43_class_opcode_refuted.

Example C43_example : forall alph,
  exists x, context_compile alph true
      [RLowercase 97 [10241] no_constraints; RLowercase 97 [10249] no_constraints;
       RBase (lit "uppercase") 65 97; RAttribute (lit "foo") [97; 65]]%N
    = TOk x /\
    defs_get (x_defs x) 65%N = Some [10241%N] /\
    cls_has (x_chars x) CUppercase 65%N = true /\ cls_has (x_chars x) CLetter 65%N = true /\
    cls_has (x_dots x) (CUser (lit "foo")) 10241%N = true.
Proof. intros alph. eexists. split; [vm_compute; reflexivity|]. vm_compute. auto. Qed.
