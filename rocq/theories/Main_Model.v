(** Model of the program: litcheck/src/main.rs (which tool is run), litcheck/src/commands.rs, litcheck/src/commands/lit.rs:42-78
    (its subcommands) and litcheck/src/commands/filecheck.rs (FILECHECK_OPTS and the exit status).
    Clap is not code of the repository: what it does with these commands is taken from its documentation.  [multicall]: the
    subcommand is the stem of the file name of the first word.  A subcommand is named by its exact name ([infer_subcommands] is
    not set, no aliases are declared) or is [help].  Wrong usage ends the program with 2, help that is asked for with 0.  How
    clap turns the other words into options is an input. *)
From Coq Require Import String.
From Verif Require Import Base Text_Model Cursor_Model Check_Model Program_Model Parse_Model Smart_Model PatSet_Model Whole_Model Cli_Model.
Notation length := List.length.
Open Scope string_scope. Open Scope list_scope. Open Scope nat_scope.

(** std::path::Path::file_name on Unix, for a path whose last component is neither empty nor a dot *)
Fixpoint after_slash (s : str) : str :=
  match s with
  | [] => []
  | c :: r => if existsb (N.eqb 47) r then after_slash r else if N.eqb c 47 then r else s
  end.
(** std::path::Path::file_stem: up to the last dot, unless that is the first character *)
Fixpoint before_dot (s : str) : str :=
  match s with
  | [] => []
  | c :: r => if existsb (N.eqb 46) r then c :: before_dot r else if N.eqb c 46 then [] else s
  end.
Definition file_stem (path : str) : str :=
  match after_slash path with
  | [] => []
  | c :: r => c :: (if existsb (N.eqb 46) r then before_dot r else r)
  end.

Inductive tool := Lit | FileCheck | Not.
(** How clap leaves: with a subcommand and its words, with help, or with a complaint *)
Inductive parsed := Sub (name : str) (rest : list str) | Help | Usage.
(** commands.rs:21-25 *)
Definition commands : list str := map of_string ["lit"; "filecheck"; "not"].
Definition is_help (w : str) : bool := existsb (str_eqb w) (map of_string ["help"; "--help"; "-h"]).
(** main.rs:93-106: the subcommands of the program, named by the first word *)
Definition top (name : str) (words : list str) : parsed :=
  if existsb (str_eqb name) (of_string "litcheck" :: commands) then Sub name words
  else if str_eqb name (of_string "help") then Help
  else Usage.
(** main.rs:99-104: the subcommands of [litcheck]; without a word, it shows its help as a complaint *)
Definition explicit (words : list str) : parsed :=
  match words with
  | [] => Usage
  | w :: r => if existsb (str_eqb w) commands then Sub w r else if is_help w then Help else Usage
  end.
(** main.rs:26-38: the arms of [main] *)
Definition arm (name : str) : option tool :=
  if existsb (str_eqb name) (map of_string ["filecheck"; "FileCheck"; "check"]) then Some FileCheck
  else if str_eqb name (of_string "lit") then Some Lit
  else if existsb (str_eqb name) (map of_string ["not"; "NOT"]) then Some Not
  else None.
(** What the program does: a tool with its words, or it ends with a code *)
Inductive outcome := Runs (t : tool) (words : list str) | Ends (code : nat).
(** main.rs:11-39, 59-80; [timing]: the variable LITCHECK_TRACE_TIMING *)
Definition main (timing : option str) (argv0 : str) (words : list str) : outcome :=
  if match timing with Some p => negb (existsb (str_eqb p) (map of_string ["s"; "ms"; "us"; "ns"])) | None => false end then Ends 2
  else
    let sub := match top (file_stem argv0) words with
               | Sub name r => if str_eqb name (of_string "litcheck") then explicit r else Sub name r
               | p => p
               end in
    match sub with
    | Sub name r => match arm name with Some t => Runs t r | None => Ends 2 end
    | Help => Ends 0
    | Usage => Ends 2
    end.

(** commands/lit.rs:42-78: the subcommands of lit *)
Inductive lit_command := LitRun | LitSuites | LitTests.
Inductive lit_parsed := LitCommand (c : lit_command) (rest : list str) | LitHelp | LitUsage.
Definition lit_words (words : list str) : lit_parsed :=
  match words with
  | [] => LitUsage
  | w :: r =>
      if str_eqb w (of_string "run") then LitCommand LitRun r
      else if str_eqb w (of_string "show-suites") then LitCommand LitSuites r
      else if str_eqb w (of_string "show-tests") then LitCommand LitTests r
      else if is_help w then LitHelp else LitUsage
  end.

(** ** filecheck *)
(** The words given to filecheck as clap reads them: the options, whether --dump-input is help, the two files *)
Record invocation := mkInvocation { i_args : args; i_dump_help : bool; i_match : str; i_input : str }.
(** FILECHECK_OPTS: not set, or not to be split into words, or not accepted by clap, or options and whether --dump-input is help *)
Inductive opts := NoOpts | Refused | Opts (a : args) (dump_help : bool).
(** commands/filecheck.rs:38-42: clap's [update_from] sets every option for which the words have a value; an option with a
    default always has one.  Only --define and --implicit-check-not have none (lib.rs:130-262). *)
Definition or_given (given before : list str) : list str := match given with [] => before | _ => given end.
Definition update (a e : args) : args :=
  mkArgs (a_check e) (a_comment e) (or_given (a_define e) (a_define a)) (or_given (a_implicit e) (a_implicit a))
    (a_unused e) (a_strict e) (a_full e) (a_ci e) (a_scoped e) (a_empty e).
(** the values that clap refuses: lib.rs:393-418, expr/cli.rs *)
Definition values_ok (alnum : N -> bool) (line : Z) (a : args) : bool :=
  match prefixes_given alnum (of_string "CHECK") (a_check a), prefixes_given alnum (of_string "COM,RUN") (a_comment a),
        all_some (map (cli_define line) (a_define a)) with
  | Some _, Some _, Some _ => true
  | _, _, _ => false
  end.
(** commands/filecheck.rs:44-71; [read] is the text of a file, if it can be read.  The result of [main] is printed: 0 if it is
    [Ok], 1 if it is an error; a panic ends with 101. *)
Definition checked (verify : options -> str -> bytes -> res test_result) (alnum : N -> bool) (line : Z) (a : args) (dump_help : bool)
  (read : str -> option str) (i : invocation) : nat :=
  match options_of alnum line a with
  | None => 1
  | Some o =>
      if dump_help then 0
      else match read (i_match i), read (i_input i) with
           | Some checks, Some input =>
               match verify o checks input with
               | Val t => match into_result t with Some _ => 0 | None => 1 end
               | Err => 1
               | Panic => 101
               end
           | _, _ => 1
           end
  end.
(** main.rs:41-57 with commands/filecheck.rs:33-72 *)
Definition filecheck_exit (verify : options -> str -> bytes -> res test_result) (alnum : N -> bool) (line : Z)
  (read : str -> option str) (env : opts) (i : invocation) : nat :=
  if negb (values_ok alnum line (i_args i)) then 2
  else if str_eqb (i_match i) (of_string "help") then 2
  else match env with
       | NoOpts => checked verify alnum line (i_args i) (i_dump_help i) read i
       | Refused => 2
       | Opts e d =>
           if values_ok alnum line e then checked verify alnum line (update (i_args i) e) d read i else 2
       end.
