(** C32: dot patterns and Unicode cells. *)
From Verif Require Import Base BaseProofs TranslationModel BrailleModel BrailleProofs.

(** Every set of dots has a Unicode character (no panic); it is the standard sum of
    2^(d-1) over the dots, based at U+2800, or at U+F0000 if a virtual dot 9..F is used. *)
Theorem C32_cell_is_plane_plus_bits : forall ds,
  exists u, to_unicode (cell_of ds) = Ok u /\
    u = ((if existsb (fun d => N.leb 9 d) (cell_of ds) then 0xF0000 else 0x2800) + sum_values (cell_of ds))%N.
Proof. intros ds. destruct (to_unicode_cell ds) as (u & H1 & H2 & _). exists u. auto. Qed.
Print Assumptions C32_cell_is_plane_plus_bits.

(** Two cells with the same character have the same dots 1..15. *)
Theorem C32_different_dots_different_characters : forall a b u,
  to_unicode (cell_of a) = Ok u -> to_unicode (cell_of b) = Ok u ->
  forall d, In d all_dots -> d <> 0%N -> (In d a <-> In d b).
Proof. exact to_unicode_inj. Qed.
Print Assumptions C32_different_dots_different_characters.

(** Dot 0 is not visible in the character: the two different cells "01" and "1" coincide,
    so injectivity on all cells is false. *)
Theorem C32_dot_zero_is_lost_refuted : ~ (forall a b u,
  to_unicode (cell_of a) = Ok u -> to_unicode (cell_of b) = Ok u -> cell_of a = cell_of b).
Proof. intros H. specialize (H [0;1]%N [1]%N 0x2801%N). vm_compute in H. specialize (H eq_refl eq_refl). discriminate. Qed.
Print Assumptions C32_dot_zero_is_lost_refuted.

(** A dots operand is accepted iff it is a non-empty sequence, joined by '-', of
    non-empty sequences of characters 0-9 a-f ([operand], [denotes] in BrailleProofs.v),
    and then denotes those cells. *)
Theorem C32_operand_syntax : forall s cs, cells_of_str s = POk cs <-> operand s cs.
Proof. exact cells_of_str_ok. Qed.
Print Assumptions C32_operand_syntax.

(** Printing accepted cells never panics and yields one character per cell. *)
Theorem C32_printing_cells : forall css, exists s, cells_to_string (map cell_of css) = Ok s /\
  Forall2 (fun ds u => to_unicode (cell_of ds) = Ok u) css s.
Proof. exact cells_to_string_ok. Qed.
Print Assumptions C32_printing_cells.

(** "1-18-19" *)
Example C32_example :
  cells_of_str [49;45;49;56;45;49;57]%N = POk [[1];[1;8];[1;9]]%N /\
  cells_to_string [[1];[1;8];[1;9]]%N = Ok [0x2801; 0x2881; 0xf0101]%N.
Proof. vm_compute. auto. Qed.
Example C32_example_bad : cells_of_str [49;45]%N = PInvalid None /\ cells_of_str [122]%N = PInvalid (Some 122%N).
Proof. vm_compute. auto. Qed.
