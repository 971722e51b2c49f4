(** C33: cursor position maps. *)
From Verif Require Import Base BaseProofs TranslationModel TranslationProofs.

(** One entry per input character; entries never decrease; the entry of an input
    character of piece [t] is the index of an output character of the same piece [t]
    ([piece_at], TranslationProofs.v), or - if [t] has no output - the place where
    its output would stand; never beyond the end of the output. *)
Theorem C33_input_to_output_map : forall ts,
  length (output_positions ts) = length (in_text ts) /\
  (forall i j x y, i <= j -> nth_error (output_positions ts) i = Some x ->
     nth_error (output_positions ts) j = Some y -> x <= y) /\
  (forall k p, nth_error (output_positions ts) k = Some p ->
     p <= length (out_text ts) /\
     exists a t, piece_at r_input ts a t k /\
       (r_output t <> [] -> piece_at r_output ts a t p) /\
       (r_output t = [] -> p = length (out_text a))).
Proof. exact output_positions_spec. Qed.
Print Assumptions C33_input_to_output_map.

Theorem C33_output_to_input_map : forall ts,
  length (input_positions ts) = length (out_text ts) /\
  (forall i j x y, i <= j -> nth_error (input_positions ts) i = Some x ->
     nth_error (input_positions ts) j = Some y -> x <= y) /\
  (forall k p, nth_error (input_positions ts) k = Some p ->
     p <= length (in_text ts) /\
     exists a t, piece_at r_output ts a t k /\
       (r_input t <> [] -> piece_at r_input ts a t p) /\
       (r_input t = [] -> p = length (in_text a))).
Proof. exact input_positions_spec. Qed.
Print Assumptions C33_output_to_input_map.

(** Within a piece the map is the identity as long as both sides have characters. *)
Theorem C33_characters_align_within_a_piece : forall a t b i,
  i < length (r_input t) -> i < length (r_output t) ->
  nth_error (output_positions (a ++ t :: b)) (length (in_text a) + i) = Some (length (out_text a) + i) /\
  nth_error (input_positions (a ++ t :: b)) (length (out_text a) + i) = Some (length (in_text a) + i).
Proof.
  intros a t b i Hi Ho. split.
  - etransitivity; [exact (opos_piece 0 a t b i Hi)|]. f_equal. lia.
  - etransitivity; [exact (ipos_piece 0 a t b i Ho)|]. f_equal. lia.
Qed.
Print Assumptions C33_characters_align_within_a_piece.

Definition ex_piece (i o : str) := resolved_new i o 0 Main None.
Example C33_example :
  let ts := [ex_piece [1;2;3] [7]; ex_piece [] [8]; ex_piece [4] []; ex_piece [5;6] [9;9;9]]%N in
  output_positions ts = [0;0;0;2;2;3] /\ input_positions ts = [0;3;4;5;5].
Proof. vm_compute. auto. Qed.
