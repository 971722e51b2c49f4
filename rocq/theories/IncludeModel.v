(** Model of reading table files and of include directives (src/parser.rs:2380-2597) and of
    the construction of the rules of a [Translator] (src/lib.rs:67-99).

    The file system is a record of functions: it does not change while a table is read.
    [find_file] is that of the library search_path.  Paths are strings; [extension] of a
    path is the function [is_dic]. *)
From Coq Require Import List.
From Verif Require Import Base RuleModel ParserModel.

Record file_system := {
  find_file : str -> option str;     (* SearchPath::find_file *)
  canonicalize : str -> option str;  (* Path::canonicalize *)
  read_to_string : str -> option str;
  is_dic : str -> bool               (* extension() == Some("dic") *)
}.
(** parser.rs:2407-2413 [AnchoredRule]. *)
Record anchored := mk_anchored { a_rule : rule; a_path : option str; a_line : nat }.
(** parser.rs:2380-2401 [TableError]. *)
Inductive table_error :=
| TParse (path : option str) (line : nat) (e : parse_error)
| TIncludesInMemory
| TNotReadable
| TNotFound (file : str)
| THyphenationNotFound (file : str)
| TCircular (chain : list str)
| TTooDeep (depth : nat).
Definition table_result : Type := (list anchored + list table_error)%type.
(** parser.rs:2405 [MAX_INCLUDE_DEPTH]. *)
Definition max_include_depth : nat := 64.

(** parser.rs:2458-2487 [table]: [parse_table] with the path of the table *)
Definition table_of_text (ws : char -> bool) (text : str) (path : option str) : table_result :=
  match parse_table ws text with
  | inl rules => inl (map (fun x => mk_anchored (snd x) path (fst x)) rules)
  | inr errors => inr (map (fun x => TParse path (fst x) (snd x)) errors)
  end.
(** parser.rs:2489-2492 [table_file]. *)
Definition table_file (ws : char -> bool) (fs : file_system) (path : str) : table_result :=
  match read_to_string fs path with
  | Some text => table_of_text ws text (Some path)
  | None => inr [TNotReadable]
  end.

(** parser.rs:2573-2596 [expand_includes], the two halves of the partition *)
Fixpoint all_rules (l : list table_result) : list anchored :=
  match l with [] => [] | inl rs :: t => rs ++ all_rules t | inr _ :: t => all_rules t end.
Fixpoint all_errors (l : list table_result) : list table_error :=
  match l with [] => [] | inl _ :: t => all_errors t | inr es :: t => es ++ all_errors t end.
Definition partition_results (l : list table_result) : table_result :=
  match all_errors l with [] => inl (all_rules l) | errors => inr errors end.
(** [map], when every recursive call had fuel *)
Fixpoint each {A B} (f : A -> option B) (l : list A) : option (list B) :=
  match l with
  | [] => Some []
  | a :: r => match f a, each f r with Some b, Some bs => Some (b :: bs) | _, _ => None end
  end.
(** parser.rs:2539-2567 [expand_include]; [go] is [table_expanded_with] for an included file *)
Definition expand_include (fs : file_system) (go : str -> option table_result) (r : anchored) : option table_result :=
  match a_rule r with
  | RInclude file =>
      if is_dic fs file then
        match find_file fs file with
        | Some path => Some (inl [mk_anchored (RIncludeHyphenation path) (a_path r) (a_line r)])
        | None => Some (inr [THyphenationNotFound file])
        end
      else go file
  | _ => Some (inl [r])
  end.
(** parser.rs:2573-2596 [expand_includes]. *)
Definition expand_includes (fs : file_system) (go : str -> option table_result) (rules : list anchored) : option table_result :=
  option_map partition_results (each (expand_include fs go) rules).
(** parser.rs:2505-2537 [table_expanded_with]; recursion is fuelled, [None] is no fuel. *)
Fixpoint table_expanded_with (ws : char -> bool) (fs : file_system) (fuel : nat) (file : str) (chain : list str) : option table_result :=
  match fuel with
  | 0 => None
  | S fuel =>
      match find_file fs file with
      | Some path =>
          match canonicalize fs path with
          | Some canonical =>
              if Nat.leb max_include_depth (length chain) then Some (inr [TTooDeep max_include_depth])
              else if existsb (str_eqb canonical) chain then Some (inr [TCircular (chain ++ [canonical])])
              else match table_file ws fs path with
                   | inl rules => expand_includes fs (fun f => table_expanded_with ws fs fuel f (chain ++ [canonical])) rules
                   | inr errors => Some (inr errors)
                   end
          | None => Some (inr [TNotReadable])
          end
      | None => Some (inr [TNotFound file])
      end
  end.
(** parser.rs:2494-2497 [table_expanded].  The fuel is one more than the depth of includes
    (IncludeProofs.v: it is never used up). *)
Definition table_expanded (ws : char -> bool) (fs : file_system) (file : str) : option table_result :=
  table_expanded_with ws fs (S max_include_depth) file [].
(** src/test.rs:111-112, 142-143: an inline table with includes *)
Definition inline_expanded (ws : char -> bool) (fs : file_system) (text : str) : option table_result :=
  match table_of_text ws text None with
  | inl rules => expand_includes fs (fun f => table_expanded_with ws fs (S max_include_depth) f []) rules
  | inr errors => Some (inr errors)
  end.

(** lib.rs:67-81 [Translator::new], the rules: those of all tables; the first table with
    errors ends the loop. *)
Fixpoint tables_expanded (ws : char -> bool) (fs : file_system) (files : list str) : option table_result :=
  match files with
  | [] => Some (inl [])
  | f :: r =>
      match table_expanded ws fs f with
      | Some (inl rules) =>
          match tables_expanded ws fs r with
          | Some (inl more) => Some (inl (rules ++ more))
          | other => other
          end
      | other => other
      end
  end.
(** lib.rs:87-99 [Translator::from_table_source], the rules. *)
Definition is_include (r : anchored) : bool := match a_rule r with RInclude _ => true | _ => false end.
Definition source_rules (ws : char -> bool) (text : str) : table_result :=
  match table_of_text ws text None with
  | inl rules => if existsb is_include rules then inr [TIncludesInMemory] else inl rules
  | inr errors => inr errors
  end.
