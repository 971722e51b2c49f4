(** Model of the metadata queries: src/metadata.rs and the command [Query]
    (src/main.rs:439-452).

    Directories and files are given by functions, as in IncludeModel.v: [dirs] are the
    directories of the search path, each [None] if it cannot be listed, with its entries,
    each [None] if it cannot be read.  Hash maps and sets are association lists and lists;
    only membership matters. *)
From Coq Require Import Strings.String.
From Coq Require Import List.
From Verif Require Import Base RuleModel BrailleModel OperandModel ParserModel.

Definition property : Type := (str * str)%type.
Definition property_eqb (a b : property) : bool := (str_eqb (fst a) (fst b) && str_eqb (snd a) (snd b))%bool.
(** metadata.rs:17 [Index]: the pairs of a property and a path *)
Definition index : Type := list (property * str).
Definition index_get (ix : index) (q : property) : option (list str) :=
  match map snd (filter (fun e => property_eqb (fst e) q) ix) with [] => None | l => Some l end.

(** metadata.rs:19-33 [find]: indexing an empty vector panics. *)
Definition is_none {A} (o : option A) : bool := match o with None => true | Some _ => false end.
Fixpoint flatten {A} (l : list (option A)) : list A :=
  match l with [] => [] | Some a :: r => a :: flatten r | None :: r => flatten r end.
Definition find_tables (ix : index) (query : list property) : res (list str) :=
  let candidates := map (index_get ix) query in
  if existsb is_none candidates then Ok []
  else match flatten candidates with
       | [] => Panic
       | first :: others => Ok (filter (fun p => forallb (existsb (str_eqb p)) others) first)
       end.

(** metadata.rs:44-59: the property of a line.  [strip_prefix], [split_once]. *)
Fixpoint split_once (sep : char) (s : str) : option (str * str) :=
  match s with
  | [] => None
  | c :: r => if N.eqb c sep then Some ([], r)
              else match split_once sep r with Some (a, b) => Some (c :: a, b) | None => None end
  end.
Definition is_ascii_graphic (c : char) : bool := (N.leb 33 c && N.leb c 126)%bool.
Definition is_empty (s : str) : bool := match s with [] => true | _ => false end.
Definition line_property (ws : char -> bool) (line : str) : option property :=
  match line with
  | c1 :: c2 :: r =>
      if (N.eqb c1 35 && N.eqb c2 43)%bool then
        match split_once 58%N r with
        | Some (key, value) =>
            let k := trim ws key in
            let v := trim ws value in
            if (negb (is_empty k) && negb (is_empty v) && forallb is_ascii_alphanumeric k && forallb is_ascii_graphic v)%bool
            then Some (k, v) else None
        | None => None
        end
      else None
  | _ => None
  end.
(** metadata.rs:42-62: the properties of a file; a file that cannot be read has none *)
Definition file_entries (ws : char -> bool) (read : str -> option str) (path : str) : index :=
  match read path with
  | Some content => flat_map (fun l => match line_property ws l with Some q => [(q, path)] | None => [] end) (lines content)
  | None => []
  end.
(** metadata.rs:35-66 [index]. *)
Fixpoint dir_entries (ws : char -> bool) (read : str -> option str) (entries : list (option str)) : option index :=
  match entries with
  | [] => Some []
  | None :: _ => None
  | Some path :: r => option_map (app (file_entries ws read path)) (dir_entries ws read r)
  end.
Fixpoint build_index (ws : char -> bool) (read : str -> option str) (dirs : list (option (list (option str)))) : option index :=
  match dirs with
  | [] => Some []
  | None :: _ => None
  | Some entries :: r =>
      match dir_entries ws read entries with
      | Some ix => option_map (app ix) (build_index ws read r)
      | None => None
      end
  end.

(** main.rs:441-447: the query on the command line; [parts[1]] panics if there is no [=]. *)
Fixpoint each_part (l : list str) : res (list property) :=
  match l with
  | [] => Ok []
  | s :: r => match split_on 61%N s with
              | k :: v :: _ => do q <- each_part r; Ok ((k, v) :: q)
              | _ => Panic
              end
  end.
Definition query_of (s : str) : res (list property) := each_part (split_on 44%N s).
(** main.rs:439-452: [None] is the message that the tables cannot be indexed. *)
Definition query_command (ws : char -> bool) (read : str -> option str) (dirs : list (option (list (option str)))) (s : str) : res (option (list str)) :=
  match build_index ws read dirs with
  | Some ix => do q <- query_of s; do ps <- find_tables ix q; Ok (Some ps)
  | None => Ok None
  end.
