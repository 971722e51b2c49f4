(** Rules that make nothing but signs, and opcodes the translator does not know what to do
    with. *)
From Verif Require Import Base RuleModel TranslationModel TraceSpec.

(** the rules of indicators: their signs, and what says where the signs stand *)
Definition only_signs (r : rule) : bool :=
  match r with
  | RLencapsphrase _ | RCapsmodechars _ | RNoletsign _ | RNoletsignbefore _ | RNoletsignafter _
  | REmphclass _ | RLenemphphrase _ _ | REmphmodechars _ _ | RNoemphchars _ _ | RNumericnocontchars _ => true
  | _ => indicator_opcode r
  end.
(** the signs that are read when translating backward *)
Definition read_backward (r : rule) : bool :=
  match r with
  | RNumsign _ | RNonumsign _ _ | RCapsletter _ _ | RBegcapsword _ _ | REndcapsword _ _ => true
  | _ => false
  end.
(** The traces of the passes: those before the main pass - the [n]-th - are the same, and so
    are the pieces of the main pass but for the signs. *)
Definition but_for_signs (n : nat) (tr1 tr2 : list (list resolved)) : Prop :=
  exists pre out1 out2 post1 post2, tr1 = pre ++ out1 :: post1 /\ tr2 = pre ++ out2 :: post2 /\ length pre = n /\
    text_pieces out1 = text_pieces out2.
(** opcodes that are read and change no translation *)
Definition ignored (r : rule) : bool :=
  match r with
  | RInclude _ | RDisplay _ _ _ | RMultind _ _ _ | RGrouping _ _ _ _ | RModeletter _ _ _ | RBegmodeword _ _ _
  | RBegmodephrase _ _ | REndmodephrase _ _ _ | RLenmodephrase _ _ | RMidendnumericmodechars _
  | RSeqafterpattern _ | RSeqafterexpression _ | RClass _ _ | RCapsnocont | RNocont _ | RReplace _ _
  | RRepeated _ _ _ | RRepword _ _ | RRependword _ _ _ | RExactdots _ | RJoinnum _ _ _ => true
  | _ => false
  end.
