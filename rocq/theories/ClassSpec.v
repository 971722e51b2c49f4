(** The classes of characters that have a name of their own in tables; every other name
    stands for a class made by the table itself (attribute, swap opcodes).  Note that
    [math] and [litdigit] are not among them. *)
From Verif Require Import Base BaseProofs RuleModel.

Definition class_names : list (str * class) :=
  [(lit "space", CSpace); (lit "digit", CDigit); (lit "letter", CLetter); (lit "uppercase", CUppercase);
   (lit "lowercase", CLowercase); (lit "punctuation", CPunctuation); (lit "sign", CSign);
   (lit "seqdelimiter", CSeqdelimiter); (lit "seqbeforechars", CSeqbeforechars); (lit "seqafterchars", CSeqafterchars)].
Fixpoint class_in (l : list (str * class)) (name : str) : class :=
  match l with
  | [] => CUser name
  | (n, k) :: l => if str_eqb name n then k else class_in l name
  end.
(** the class called [name] *)
Definition class_called (name : str) : class := class_in class_names name.

Lemma class_from_called name : class_from name = class_called name.
Proof. reflexivity. Qed.
