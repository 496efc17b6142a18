(** Model of the text of a test's result, which lit prints under the line of a test with --verbose or --show-all
    (litcheck/src/commands/lit.rs:400, 409): lit/src/test/result.rs. *)
From Coq Require Import String.
From Verif Require Import Base Cursor_Model Num_Model Run_Model Report_Model.
Notation length := List.length.
Open Scope string_scope. Open Scope list_scope. Open Scope nat_scope.

(** result.rs:9-17: the status, the exit status (nothing, or a code, or nothing for a process ended by a signal), the outputs as
    [String::from_utf8_lossy] reads them (result.rs:70-76), the time in seconds and nanoseconds.  The time of the start is not shown. *)
Record result := mkResult { rs_status : status; rs_exit : option (option Z); rs_stdout : str; rs_stderr : str; rs_elapsed : option (nat * N) }.
(** result.rs:88-91 *)
Definition exit_code (r : result) : option Z := match rs_exit r with Some c => c | None => None end.
(** result.rs:83-86 *)
Definition is_timeout (r : result) : bool := match rs_status r with Timeout => true | _ => false end.
(** [i32]'s [Display] *)
Definition int_text (z : Z) : str := (if (z <? 0)%Z then [45%N] else []) ++ show_digits 10 false (Z.abs z).
Definition is_empty (s : str) : bool := match s with [] => true | _ => false end.

Section Detail.
(** "{:.2}" of [Duration::as_secs_f64], computed with floating point numbers *)
Variable fixed2 : nat * N -> str.
(** result.rs:95-102 *)
Definition exit_text (r : result) : str :=
  match exit_code r with
  | Some c => if negb (c =? 0)%Z then of_string "Exit Code: " ++ println (int_text c) else []
  | None => of_string "Exit Code: " ++ println (of_string "N/A")
  end.
(** result.rs:104-131; nothing: [expect] fails at 106-107 *)
Definition time_text (r : result) : option str :=
  if is_timeout r then
    match rs_elapsed r with
    | None => None
    | Some e => Some (println (of_string "Timeout" ++ of_string ": Reached timeout after " ++ number_text (fst e) ++ of_string "s"))
    end
  else match rs_elapsed r with
       | Some e =>
           let secs := fst e in
           Some (of_string "Elapsed" ++ of_string ": "
             ++ (if secs =? 0 then println (number_text (N.to_nat (snd e / 1000000)) ++ of_string "ms") else println (fixed2 e ++ of_string "s")))
       | None => Some (println [])
       end.
(** result.rs:133-159 *)
Definition output_text (head o : str) : str :=
  if negb (is_empty o) then println head ++ println o ++ println (of_string "----------------------------") else [].
(** result.rs:93-163, [Display] *)
Definition details (r : result) : option str :=
  match time_text r with
  | None => None
  | Some t => Some (exit_text r ++ t ++ output_text (of_string "Command Output (stdout) ----") (rs_stdout r)
      ++ output_text (of_string "Command Output (stderr) ----") (rs_stderr r))
  end.
End Detail.

(** ** Where results come from: utils.rs:66-156, sh/mod.rs:64-172, engine.rs, executable.rs:32-58.
    The execution of a test ends in one of these ways; [text] is what is said of an error, [o], [e] what the process printed. *)
Inductive happened :=
| Said (s : status) (text : str)                                       (** sh/mod.rs:73, 82, 88; executable.rs:36: without an execution *)
| Passed                                                               (** sh/mod.rs:94; executable.rs:41 *)
| NotSpawned (text : str)                                              (** utils.rs:153-154 *)
| Exited (code : option Z) (o e : str) (t : nat * N)                 (** utils.rs:116-129 *)
| TimedOut (status : option (option Z)) (o e : str) (t : nat * N)    (** utils.rs:91-113 *)
| WaitFailed (o e text : str) (t : nat * N).                         (** utils.rs:131-148 *)
Definition result_of (h : happened) : result :=
  match h with
  | Said s text => mkResult s None [] text None
  | Passed => mkResult Pass None [] [] None
  | NotSpawned text => mkResult Unresolved None [] (of_string "Failed to spawn process: " ++ text) None
  | Exited code o e t => mkResult (of_exit code) (Some code) o e (Some t)
  | TimedOut status o e t => mkResult Timeout status o e (Some t)
  | WaitFailed o e text t =>
      mkResult Unresolved None o
        (if is_empty e then of_string "Unexpected error occurred waiting on child process: " ++ text
         else e ++ [10%N; 10%N] ++ of_string "Unexpected error occurred waiting on child process: " ++ text) (Some t)
  end.
