(** Model of how lit runs tests and reports on them: lit/src/test/status.rs, lit/src/formats/sh/mod.rs
    and engine.rs, lit/src/config/mod.rs, litcheck/src/commands/lit.rs and not.rs.  What a child process
    does, the file system and the regular expressions of filters are inputs. *)
From Verif Require Import Base Text_Model Cursor_Model.
From Verif Require BoolExpr_Model.
From Coq Require Import String.

(** ** status.rs *)
(** status.rs:4-16 *)
Inductive status := Unresolved | Excluded | Skipped | Pass | FlakyPass | Fail | Xfail | Xpass | Timeout | Unsupported.
(** status.rs:3, the derived order, as a rank *)
Definition rank (s : status) : nat :=
  match s with Unresolved => 0 | Excluded => 1 | Skipped => 2 | Pass => 3 | FlakyPass => 4 | Fail => 5 | Xfail => 6 | Xpass => 7 | Timeout => 8 | Unsupported => 9 end.
Definition status_eqb (a b : status) : bool := rank a =? rank b.
(** status.rs:48-53 *)
Definition is_failure (s : status) : bool :=
  match s with Unresolved | Timeout | Fail | Xpass => true | _ => false end.
(** status.rs:55-63; the exit code, or nothing for a process ended by a signal *)
Definition of_exit (code : option Z) : status :=
  match code with None => Unresolved | Some 0%Z => Pass | Some _ => Fail end.

(** ** engine.rs *)
(** engine.rs:10-39: [runs i] is the outcome of the [i]-th execution, nothing for an error before the
    process is started; answers the status and the number of executions *)
Fixpoint run_loop (runs : nat -> option status) (max_retries retries fuel : nat) : option status * nat * nat :=
  match runs retries with
  | None => (None, retries, S retries)
  | Some s =>
      if status_eqb s Fail then
        let retries' := retries + 1 in
        match fuel with
        | 0 => (Some s, retries', S retries)
        | S f => if max_retries <? retries' then (Some s, retries', S retries) else run_loop runs max_retries retries' f
        end
      else (Some s, retries, S retries)
  end.
Definition run_test (allowed_retries : option nat) (runs : nat -> option status) : option status * nat :=
  let max_retries := match allowed_retries with Some n => n | None => 0 end in
  let '(r, retries, count) := run_loop runs max_retries 0 (S max_retries) in
  match r with
  | None => (None, count)
  | Some s => (Some (if (0 <? retries) && status_eqb s Pass then FlakyPass else s), count)
  end.

(** ** sh/mod.rs *)
(** the parts of a parsed script that decide how it is reported (script/mod.rs) *)
Record script := mkScript { sc_requires : list BoolExpr_Model.expr; sc_unsupported : list BoolExpr_Model.expr; sc_xfails : list BoolExpr_Model.expr; sc_retries : option nat }.
(** the circumstances of one test *)
Record situation := mkSit {
  si_readable : bool;                    (** the test file can be read *)
  si_script : option script;             (** its script, if it parses *)
  si_features : list str;                (** the features available to it *)
  si_no_execute : bool;                  (** --no-execute *)
  si_extension : bool;                   (** its file name has an extension *)
  si_temp : bool;                        (** a temporary directory can be made *)
  si_substitutes : bool;                 (** the substitutions can be applied *)
  si_xfail_not : bool;
  si_runs : nat -> option status }.
(** sh/mod.rs:64-172; second component: how often the script was executed *)
Definition sh_execute (rmatch : str -> str -> bool) (i : situation) : res status * nat :=
  if negb (si_readable i) then (Err, 0)
  else match si_script i with
  | None => (Val Unresolved, 0)
  | Some sc =>
      match BoolExpr_Model.missing_features rmatch (si_features i) (sc_requires sc) with
      | Some _ => (Val Unsupported, 0)
      | None =>
      match BoolExpr_Model.unsupported_features rmatch (si_features i) (sc_unsupported sc) with
      | Some _ => (Val Unsupported, 0)
      | None =>
          if si_no_execute i then (Val Pass, 0)
          else if negb (si_temp i && si_extension i) then (Panic, 0)
          else if negb (si_substitutes i) then (Err, 0)
          else
            let '(r, n) := run_test (sc_retries sc) (si_runs i) in
            match r with
            | None => (Err, n)
            | Some s =>
                let expected := if si_xfail_not i then false else existsb (BoolExpr_Model.evaluate rmatch (si_features i)) (sc_xfails sc) in
                (Val (if expected then match s with Pass | FlakyPass => Xpass | Fail => Xfail | o => o end else s), n)
            end
      end end
  end.

(** ** config/mod.rs *)
(** config/mod.rs:51-65; a filter is the set of names it matches *)
Definition is_selected (filter filter_out : option (str -> bool)) (name : str) : bool :=
  (match filter with Some f => f name | None => true end) && negb (match filter_out with Some f => f name | None => false end).

(** ** commands/lit.rs *)
Section Runner.
Context {test : Type}.
(** Whether a test is selected, and what executing it gives (nothing: an error that aborts the run). *)
Variable selected : test -> bool.
Variable exec : test -> option status.

(** One worker of the pool: waiting for work, running a test, or finished. *)
Inductive worker := Idle | Running (t : test) | Done.
(** The pool: the shared queue, the workers, the reports sent so far, the tests whose execution raised
    an error, and the flag by which such an error stops the others. *)
Record pool := mkPool { po_queue : list test; po_workers : list worker; po_sent : list (test * status); po_errors : list test; po_stop : bool }.
(** commands/lit.rs:240-247, 283-315 and rayon's [par_bridge] and [try_for_each_with]: a worker takes the
    next test under the lock, runs it, reports, and goes on unless it sees the stop flag; an error sets
    the flag.  The flag may be seen late.  A panic inside a test is not modelled. *)
Inductive step : pool -> pool -> Prop :=
| S_take q t ws1 ws2 se er st : step (mkPool (t :: q) (ws1 ++ Idle :: ws2) se er st) (mkPool q (ws1 ++ Running t :: ws2) se er st)
| S_empty ws1 ws2 se er st : step (mkPool [] (ws1 ++ Idle :: ws2) se er st) (mkPool [] (ws1 ++ Done :: ws2) se er st)
| S_stop q ws1 ws2 se er : step (mkPool q (ws1 ++ Idle :: ws2) se er true) (mkPool q (ws1 ++ Done :: ws2) se er true)
| S_run q ws1 ws2 t s se er st : selected t = true -> exec t = Some s ->
    step (mkPool q (ws1 ++ Running t :: ws2) se er st) (mkPool q (ws1 ++ Idle :: ws2) (se ++ [(t, s)]) er st)
| S_exclude q ws1 ws2 t se er st : selected t = false ->
    step (mkPool q (ws1 ++ Running t :: ws2) se er st) (mkPool q (ws1 ++ Idle :: ws2) (se ++ [(t, Excluded)]) er st)
| S_error q ws1 ws2 t se er st : selected t = true -> exec t = None ->
    step (mkPool q (ws1 ++ Running t :: ws2) se er st) (mkPool q (ws1 ++ Done :: ws2) se (er ++ [t]) true).
Definition start_pool (n : nat) (tests : list test) : pool := mkPool tests (repeat Idle n) [] [] false.
Definition finished (p : pool) : Prop := Forall (fun w => w = Done) (po_workers p).

(** The reports by status, a [BTreeMap] as a list sorted by key. *)
Definition results := list (status * list (test * status)).
Fixpoint add (s : status) (l : list (test * status)) (r : results) : results :=
  match r with
  | [] => [(s, l)]
  | (k, v) :: r' => if rank s <? rank k then (s, l) :: r else if status_eqb s k then (k, v ++ l) :: r' else (k, v) :: add s l r'
  end.
Fixpoint put (s : status) (l : list (test * status)) (r : results) : results :=
  match r with
  | [] => [(s, l)]
  | (k, v) :: r' => if rank s <? rank k then (s, l) :: r else if status_eqb s k then (k, l) :: r' else (k, v) :: put s l r'
  end.
Fixpoint get_or_nil (s : status) (r : results) : list (test * status) :=
  match r with [] => [] | (k, v) :: r' => if status_eqb s k then v else get_or_nil s r' end.
Definition drop (s : status) (r : results) : results := filter (fun kv => negb (status_eqb s (fst kv))) r.
Inductive outcome := Reported (r : results) | NoTestsSelected (available : nat).
(** commands/lit.rs:317-368: [sent] is what the channel holds, [rest] what is left of the queue *)
Definition collect_results (sent : list (test * status)) (rest : list test) : outcome :=
  let all_excluded := negb (existsb (fun x => negb (status_eqb (snd x) Excluded)) sent) in
  let r := fold_left (fun r x => add (snd x) [x] r) sent [] in
  let r := add Excluded [] r in
  let excluded := filter (fun t => negb (selected t)) rest in
  let skipped := filter selected rest in
  let all_excluded := all_excluded && match skipped with [] => true | _ => false end in
  let r := put Excluded (get_or_nil Excluded r ++ map (fun t => (t, Excluded)) excluded) r in
  let r := match get_or_nil Excluded r with [] => drop Excluded r | _ => r end in
  let r := match skipped with [] => r | _ => put Skipped (map (fun t => (t, Skipped)) skipped) r end in
  if all_excluded then NoTestsSelected (fold_right (fun kv n => List.length (snd kv) + n) 0 r) else Reported r.
(** commands/lit.rs:249-271: the exit status once the workers have finished; [Err] is an error returned
    from [main], which also exits unsuccessfully *)
Inductive exit := Success | Failure | Error.
Definition conclude (p : pool) : outcome * exit :=
  match collect_results (po_sent p) (po_queue p) with
  | NoTestsSelected n => (NoTestsSelected n, Error)
  | Reported r =>
      let any_failed := existsb (fun kv => is_failure (fst kv)) r in
      let aborted := match po_errors p with [] => false | _ => true end in
      (Reported r, if any_failed || aborted then Failure else Success)
  end.
End Runner.
Arguments pool : clear implicits.
Arguments worker : clear implicits.

(** ** commands/not.rs *)
(** what happened to the command: not given, not found, not runnable, ended by a signal, or exited *)
Inductive ran := NoCommand | NotFound | NotRunnable | Crashed | Exited (code : Z).
(** commands/not.rs:36-69 *)
Definition not_run (expect_crash : bool) (r : ran) : Z :=
  match r with
  | NoCommand => 126
  | NotFound => 127
  | NotRunnable => 126
  | Crashed => if expect_crash then 0 else 1
  | Exited c => if expect_crash then 1 else if (c =? 0)%Z then 1 else 0
  end.

(** ** the generated shell script *)
(** The part of the shell's language the script is written in. *)
Inductive shell := Builtin (text : str) | User (cmd : str) | And (a b : shell) | Group (a : shell).
Local Open Scope string_scope.
Local Open Scope list_scope.
Definition nl : str := [10%N].
(** engine.rs:63-100, the text; [quote] is shlex's quoting *)
Definition run_text (quote : str -> str) (show_line : nat -> str) (x : nat * str) : str :=
  of_string "{" ++ nl ++ of_string "  " ++ of_string "{ set +x; } 2>/dev/null && "
  ++ of_string "echo 'RUN at line " ++ show_line (fst x) ++ of_string "': " ++ quote (snd x) ++ of_string " >&2 && "
  ++ of_string "{ set -x; } 2>/dev/null && {" ++ nl ++ snd x ++ nl ++ of_string "};" ++ nl ++ of_string "}".
Definition write_script (quote : str -> str) (show_line : nat -> str) (pipefail : bool) (cmds : list (nat * str)) : str :=
  (if pipefail then of_string "set -o pipefail;" ++ nl else [])
  ++ of_string "set -x;" ++ nl
  ++ join (of_string " && ") (map (run_text quote show_line) cmds)
  ++ nl.
(** The same text as the shell's parser sees it: statements run one after the other. *)
Definition run_shell (quote : str -> str) (show_line : nat -> str) (x : nat * str) : shell :=
  Group (And (Builtin (of_string "{ set +x; } 2>/dev/null"))
        (And (Builtin (of_string "echo 'RUN at line " ++ show_line (fst x) ++ of_string "': " ++ quote (snd x) ++ of_string " >&2"))
        (And (Builtin (of_string "{ set -x; } 2>/dev/null"))
             (Group (User (snd x)))))).
Fixpoint chain (first : shell) (l : list shell) : shell :=
  match l with [] => first | x :: r => chain (And first x) r end.
Definition script_statements (quote : str -> str) (show_line : nat -> str) (pipefail : bool) (cmds : list (nat * str)) : list shell :=
  (if pipefail then [Builtin (of_string "set -o pipefail")] else []) ++ [Builtin (of_string "set -x")] ++
  match map (run_shell quote show_line) cmds with [] => [] | x :: r => [chain x r] end.

(** What the shell does: [sem c st] is the effect of a user command on the world and whether it
    succeeds.  The builtins succeed and change nothing the test sees.  The trace lists the commands
    run. *)
Section Shell.
Context {world : Type}.
Variable sem : str -> world -> world * bool.
Fixpoint run_sh (e : shell) (st : world) : world * bool * list str :=
  match e with
  | Builtin _ => (st, true, [])
  | User c => let '(st', ok) := sem c st in (st', ok, [c])
  | Group a => run_sh a st
  | And a b =>
      let '(st1, ok, tr) := run_sh a st in
      if ok then let '(st2, ok2, tr2) := run_sh b st1 in (st2, ok2, tr ++ tr2) else (st1, false, tr)
  end.
Fixpoint run_statements (l : list shell) (last : bool) (st : world) : world * bool * list str :=
  match l with
  | [] => (st, last, [])
  | e :: r => let '(st1, ok, tr) := run_sh e st in let '(st2, ok2, tr2) := run_statements r ok st1 in (st2, ok2, tr ++ tr2)
  end.
End Shell.
