(** Model of the listing of suites: litcheck/src/commands/lit.rs:148-187. *)
From Coq Require Import String.
From Verif Require Import Base Num_Model Run_Model Report_Model.
Notation length := List.length.
Open Scope string_scope. Open Scope list_scope. Open Scope nat_scope.

(** [str::len] of a text given by its characters: the bytes of its UTF-8 encoding (used at lit.rs:167, 172, 176, 179) *)
Definition char_len (c : N) : nat :=
  if (c <? 128)%N then 1 else if (c <? 2048)%N then 2 else if (c <? 65536)%N then 3 else 4.
Definition byte_len (s : str) : nat := list_sum (map char_len s).
(** What is shown of a suite (suite/mod.rs:71-96, format.rs:46-52, suite/registry/default.rs:173-175): the sets and maps in
    the order in which they are iterated, paths as [display] shows them. *)
Record suite := mkSuite { su_name : str; su_tests : nat; su_source : str; su_exec : str; su_format : str;
  su_features : list str; su_substitutions : list (str * str); su_env : list (str * str) }.
(** lit.rs:170-174, 177-181 *)
Definition print_entries (l : list (str * str)) : str :=
  let max_width := max_of (map (fun e => byte_len (fst e)) l) in
  flat_map (fun e => let padding := max_width - byte_len (fst e) in
    println (of_string "        - " ++ fst e ++ spaces padding ++ of_string ": " ++ snd e)) l.
(** lit.rs:153-183 *)
Definition print_suite (s : suite) : str :=
  println (of_string "  * " ++ su_name s ++ of_string " - " ++ number_text (su_tests s) ++ of_string " tests")
  ++ println (of_string "    Source Root  : " ++ su_source s)
  ++ println (of_string "    Exec Root    : " ++ su_exec s)
  ++ println (of_string "    Test Format  : " ++ su_format s)
  ++ println (of_string "    Available Features:")
  ++ flat_map (fun f => println (of_string "        - " ++ f)) (su_features s)
  ++ println (of_string "    Available Substitutions:")
  ++ print_entries (su_substitutions s)
  ++ println (of_string "    Environment Variables:")
  ++ print_entries (su_env s).
(** lit.rs:148-187 *)
Definition print_suites (l : list suite) : str := println (of_string "-- Test Suites --") ++ flat_map print_suite l.
