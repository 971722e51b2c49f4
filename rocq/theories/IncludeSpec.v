(** Textual substitution of included tables, and what can go wrong on the way. *)
From Coq Require Import List.
From Verif Require Import Base RuleModel ParserModel IncludeModel.

(** [located fs file path canonical]: [file] is found at [path], whose real name is [canonical] *)
Definition located (fs : file_system) (file path canonical : str) : Prop :=
  find_file fs file = Some path /\ canonicalize fs path = Some canonical.
(** [contents ws fs path rules]: the file at [path] can be read and has these rules (C39) *)
Definition contents (ws : char -> bool) (fs : file_system) (path : str) (rules : list (nat * rule)) : Prop :=
  exists text, read_to_string fs path = Some text /\ parse_table ws text = inl rules.

(** ** Substitution: every include is replaced by the rules of the included table *)
Inductive expands (ws : char -> bool) (fs : file_system) : str -> list anchored -> Prop :=
| ex_table file path canonical rules out :
    located fs file path canonical -> contents ws fs path rules ->
    substituted ws fs (Some path) rules out -> expands ws fs file out
with substituted (ws : char -> bool) (fs : file_system) : option str -> list (nat * rule) -> list anchored -> Prop :=
| su_nil path : substituted ws fs path [] []
| su_rule path n r rules out : (forall file, r <> RInclude file) ->
    substituted ws fs path rules out -> substituted ws fs path ((n, r) :: rules) (mk_anchored r path n :: out)
| su_dic path n file dictionary rules out : is_dic fs file = true -> find_file fs file = Some dictionary ->
    substituted ws fs path rules out ->
    substituted ws fs path ((n, RInclude file) :: rules) (mk_anchored (RIncludeHyphenation dictionary) path n :: out)
| su_include path n file mid rules out : is_dic fs file = false -> expands ws fs file mid ->
    substituted ws fs path rules out ->
    substituted ws fs path ((n, RInclude file) :: rules) (mid ++ out).

(** ** Chains of includes *)
(** [reached ws fs file chain g]: starting with the table [file], the include of [g] is
    reached through tables whose real names are [chain]. *)
Inductive reached (ws : char -> bool) (fs : file_system) (file : str) : list str -> str -> Prop :=
| re_start : reached ws fs file [] file
| re_step chain f path canonical rules n g :
    reached ws fs file chain f -> located fs f path canonical -> contents ws fs path rules ->
    In (n, RInclude g) rules -> is_dic fs g = false -> reached ws fs file (chain ++ [canonical]) g.
(** what is wrong with the include of [g] at the end of [chain] *)
Inductive wrong (ws : char -> bool) (fs : file_system) : list str -> str -> table_error -> Prop :=
| wr_missing chain g : find_file fs g = None -> wrong ws fs chain g (TNotFound g)
| wr_unresolved chain g path : find_file fs g = Some path -> canonicalize fs path = None -> wrong ws fs chain g TNotReadable
| wr_deep chain g path canonical : located fs g path canonical -> 64 <= length chain -> wrong ws fs chain g (TTooDeep 64)
| wr_circular chain g path canonical : located fs g path canonical -> length chain < 64 -> In canonical chain ->
    wrong ws fs chain g (TCircular (chain ++ [canonical]))
| wr_unreadable chain g path canonical : located fs g path canonical -> length chain < 64 -> ~ In canonical chain ->
    read_to_string fs path = None -> wrong ws fs chain g TNotReadable
| wr_line chain g path canonical text errors n e : located fs g path canonical -> length chain < 64 -> ~ In canonical chain ->
    read_to_string fs path = Some text -> parse_table ws text = inr errors -> In (n, e) errors ->
    wrong ws fs chain g (TParse (Some path) n e)
| wr_dictionary chain g path canonical rules n file : located fs g path canonical -> length chain < 64 -> ~ In canonical chain ->
    contents ws fs path rules -> In (n, RInclude file) rules -> is_dic fs file = true -> find_file fs file = None ->
    wrong ws fs chain g (THyphenationNotFound file).
(** a chain as it is followed: no table twice, not more than 64 *)
Definition followed (chain : list str) : Prop := NoDup chain /\ length chain <= 64.
