(** Tables and their properties. *)
From Coq Require Import Strings.String.
From Coq Require Import List.
From Verif Require Import Base RuleModel BrailleModel BrailleProofs OperandModel LineSpec TableSpec.

(** printable ASCII characters other than the space *)
Definition graphic (c : char) : Prop := (33 <= c /\ c <= 126)%N.
Definition spaces (ws : char -> bool) (g : str) : Prop := Forall (fun c => ws c = true) g.
(** [states ws l k v]: the line [l] is "#+k:v", with spaces around k and v *)
Definition states (ws : char -> bool) (l k v : str) : Prop :=
  exists g1 g2 g3 g4, l = lit "#+" ++ g1 ++ k ++ g2 ++ lit ":" ++ g3 ++ v ++ g4 /\
    spaces ws g1 /\ spaces ws g2 /\ spaces ws g3 /\ spaces ws g4 /\
    k <> [] /\ Forall alphanumeric k /\ v <> [] /\ Forall graphic v.
(** [carries ws read dirs path k v]: the file [path] of a listed directory can be read and one
    of its lines states the property *)
Definition carries (ws : char -> bool) (read : str -> option str) (dirs : list (option (list (option str)))) (path k v : str) : Prop :=
  exists entries content n l, In (Some entries) dirs /\ In (Some path) entries /\
    read path = Some content /\ is_line content n l /\ states ws l k v.
(** a query on the command line: k=v,k=v,... ; a second = and what follows are ignored *)
Definition asks (part : str) (q : str * str) : Prop :=
  exists more, part = fst q ++ lit "=" ++ snd q ++ more /\ ~ In 61%N (fst q) /\ ~ In 61%N (snd q) /\
    (more = [] \/ exists m, more = lit "=" ++ m).
Definition asks_all (s : str) (query : list (str * str)) : Prop :=
  exists parts, parts <> [] /\ s = joins 44%N parts /\ Forall (fun p => ~ In 44%N p) parts /\ Forall2 asks parts query.
