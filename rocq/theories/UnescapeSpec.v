(** Specification of the escapes allowed in table operands (liblouis manual,
    "Text Encoding"): what text an operand stands for.  Independent of the model. *)
From Verif Require Import Base RuleModel.

(** A hexadecimal digit and its value. *)
Inductive Digit16 : char -> N -> Prop :=
| D_dec : forall d, (d < 10)%N -> Digit16 (48 + d)%N d
| D_lower : forall d, (10 <= d < 16)%N -> Digit16 (87 + d)%N d
| D_upper : forall d, (10 <= d < 16)%N -> Digit16 (55 + d)%N d.
(** A sequence of digits and its value, most significant digit first. *)
Inductive Digits16 : str -> N -> Prop :=
| Ds_one : forall c d, Digit16 c d -> Digits16 [c] d
| Ds_snoc : forall h v c d, Digits16 h v -> Digit16 c d -> Digits16 (h ++ [c]) (v * 16 + d).
(** A number field.  [plus] tells whether a leading plus sign is tolerated (it is
    not part of the documented syntax). *)
Inductive Number16 (plus : bool) : str -> N -> Prop :=
| N_digits : forall h v, Digits16 h v -> Number16 plus h v
| N_plus : forall h v, plus = true -> Digits16 h v -> Number16 plus (43%N :: h) v.

(** Unicode scalar values and UTF-16 surrogates. *)
Definition scalar (v : N) : Prop := (v < 0xD800 \/ 0xE000 <= v < 0x110000)%N.
Definition high_surrogate (v : N) : Prop := (0xD800 <= v < 0xDC00)%N.
Definition low_surrogate (v : N) : Prop := (0xDC00 <= v < 0xE000)%N.
Definition surrogate (v : N) : Prop := (0xD800 <= v < 0xE000)%N.
Definition pair_value (hi lo : N) : N := (0x10000 + (hi - 0xD800) * 0x400 + (lo - 0xDC00))%N.

(** backslash followed by  f n r t s v e \  *)
Definition named_escapes : list (char * char) :=
  [(102, 12); (110, 10); (114, 13); (116, 9); (115, 32); (118, 11); (101, 27); (92, 92)]%N.

(** the text that follows is the escape of a low surrogate *)
Definition low_follows (plus : bool) (s : str) : Prop :=
  exists l lo s', s = [92; 120]%N ++ l ++ s' /\ length l = 4 /\ Number16 plus l lo /\ low_surrogate lo.

(** [Escaped keep plus s t]: the operand [s] stands for the text [t].  [keep]: in
    match patterns the escapes of brackets are left for the pattern parser. *)
Inductive Escaped (keep plus : bool) : str -> str -> Prop :=
| E_nil : Escaped keep plus [] []
| E_plain : forall c s t, c <> 92%N -> Escaped keep plus s t -> Escaped keep plus (c :: s) (c :: t)
| E_named : forall e x s t, In (e, x) named_escapes -> Escaped keep plus s t ->
    Escaped keep plus (92%N :: e :: s) (x :: t)
| E_keep : forall e s t, keep = true -> In e [40; 41; 93]%N -> Escaped keep plus s t ->
    Escaped keep plus (92%N :: e :: s) (92%N :: e :: t)
| E_x : forall h v s t, length h = 4 -> Number16 plus h v -> scalar v -> Escaped keep plus s t ->
    Escaped keep plus ([92; 120]%N ++ h ++ s) (v :: t)
| E_y : forall h v s t, length h = 5 -> Number16 plus h v -> scalar v -> Escaped keep plus s t ->
    Escaped keep plus ([92; 121]%N ++ h ++ s) (v :: t)
| E_pair : forall h l hi lo s t, length h = 4 -> Number16 plus h hi -> high_surrogate hi ->
    length l = 4 -> Number16 plus l lo -> low_surrogate lo -> Escaped keep plus s t ->
    Escaped keep plus ([92; 120]%N ++ h ++ [92; 120]%N ++ l ++ s) (pair_value hi lo :: t)
| E_lone_x : forall h v s t, length h = 4 -> Number16 plus h v -> surrogate v ->
    ~ (high_surrogate v /\ low_follows plus s) -> Escaped keep plus s t ->
    Escaped keep plus ([92; 120]%N ++ h ++ s) (0xFFFD%N :: t)
| E_lone_y : forall h v s t, length h = 5 -> Number16 plus h v -> surrogate v -> Escaped keep plus s t ->
    Escaped keep plus ([92; 121]%N ++ h ++ s) (0xFFFD%N :: t).
