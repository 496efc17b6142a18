(** Model of what lit prints and how it ends: litcheck/src/commands/lit.rs:82-146 (the modes), 190-203 (the listing of tests),
    385-413 (the line of a test that has been run), 422-471 (the report); lit/src/test/status.rs:17-46 (the names of statuses).
    Colours are left out: they are not printed when the output is not a terminal.  [percent n m] is the text of the share of [n] in
    [m], computed with floating point numbers; [details] is [TestResult]'s own text. *)
From Coq Require Import String.
From Verif Require Import Base Cursor_Model Num_Model Run_Model.
Notation length := List.length.
Open Scope string_scope. Open Scope list_scope. Open Scope nat_scope.

(** status.rs:17-32 *)
Definition tag (s : status) : str :=
  match s with
  | Excluded => of_string "EXCLUDED" | Skipped => of_string "SKIPPED" | Unsupported => of_string "UNSUPPORTED" | Pass => of_string "PASS"
  | FlakyPass => of_string "FLAKYPASS" | Xfail => of_string "XFAIL" | Unresolved => of_string "UNRESOLVED" | Timeout => of_string "TIMEOUT"
  | Fail => of_string "FAIL" | Xpass => of_string "XPASS"
  end.
(** status.rs:34-47 *)
Definition label (s : status) : str :=
  match s with
  | Excluded => of_string "Excluded" | Skipped => of_string "Skipped" | Unsupported => of_string "Unsupported" | Pass => of_string "Passed"
  | FlakyPass => of_string "Passed With Retry" | Xfail => of_string "Failed As Expected" | Unresolved => of_string "Unresolved"
  | Timeout => of_string "Timed Out" | Fail => of_string "Failed" | Xpass => of_string "Unexpectedly Passed"
  end.
(** [usize::to_string] *)
Definition number_text (n : nat) : str := show_digits 10 false (Z.of_nat n).
(** [println!] *)
Definition println (s : str) : str := s ++ [10%N].
(** [console::pad_str] of a text whose characters are one column wide each, without truncation *)
Definition spaces (n : nat) : str := repeat 32%N n.
Definition pad_left (s : str) (w : nat) : str := s ++ spaces (w - length s).
Definition pad_right (s : str) (w : nat) : str := spaces (w - length s) ++ s.
(** [Iterator::max] with [unwrap_or(0)] *)
Definition max_of (l : list nat) : nat := fold_right Nat.max 0 l.

Section Report.
Context {test : Type}.
Variable name : test -> str.
Variable percent : nat -> nat -> str.
Variable details : test -> str.
(** lit.rs:426-438 *)
Definition print_group (x : status * list (test * status)) : str :=
  println (repeat 42%N 20 ++ of_string " " ++ label (fst x) ++ of_string " Tests (" ++ number_text (length (snd x)) ++ of_string "):")
  ++ flat_map (fun r => println (of_string "  " ++ name (fst r))) (snd x)
  ++ println [].
(** lit.rs:422-471 *)
Definition print_results (quiet : bool) (r : @results test) : str :=
  let show_non_error := negb quiet in
  flat_map (fun x => if negb (is_failure (fst x)) && negb show_non_error then [] else print_group x) r
  ++ (let num_tests := list_sum (map (fun x => length (snd x)) r) in
      println ([10%N] ++ of_string "Total Discovered Tests: " ++ number_text num_tests)
      ++ (let count_by_status := map (fun x => (fst x, length (snd x), number_text (length (snd x)))) r in
          let max_label_len := max_of (map (fun x => length (label (fst (fst x)))) count_by_status) in
          let max_count_len := max_of (map (fun x => length (snd x)) count_by_status) in
          flat_map (fun x => println (of_string "  " ++ pad_left (label (fst (fst x))) max_label_len ++ of_string ": "
            ++ pad_right (snd x) max_count_len ++ of_string " (" ++ percent (snd (fst x)) num_tests ++ of_string "%)")) count_by_status)).
(** lit.rs:385-413: what is printed when a test has been run; [all], [verbose]: the options *)
Definition print_run (quiet all verbose : bool) (x : test * status) : str :=
  let show_all := all in
  let show_non_error := negb quiet in
  let show_output := all || verbose in
  if is_failure (snd x) then println (tag (snd x) ++ of_string ": " ++ name (fst x)) ++ (if show_output then println (details (fst x)) else [])
  else if show_non_error || show_all then println (tag (snd x) ++ of_string ": " ++ name (fst x)) ++ (if show_all then println (details (fst x)) else [])
  else [].
(** What is printed while the tests of a pool are run: the texts of tests that are run are printed before they are reported, each
    without interruption ([ProgressBar::suspend]).  Excluded tests are reported only (lit.rs:379-383).  Two workers may print in one order and
    report in the other, which is left out. *)
Definition printed (selected : test -> bool) (quiet all verbose : bool) (p : pool test) : str :=
  flat_map (fun x => if selected (fst x) then print_run quiet all verbose x else []) (po_sent p).

(** lit.rs:190-203; a test with the name of its suite, its path and the name of its format *)
Definition print_tests (describe : test -> str * str * str) (tests : list test) : str :=
  println (of_string "-- Available Tests --")
  ++ flat_map (fun t => let '(s, p, f) := describe t in println (of_string "  " ++ s ++ of_string "::" ++ p ++ of_string " (format=" ++ f ++ of_string ")")) tests.

(** lit.rs:82-146: what is done after the suites have been loaded ([None]: loading failed).  A suite is a key with its tests.
    [selected]: what --filter and --filter-out say, which nothing before the run looks at. *)
Inductive mode := RunTests | ShowSuites | ShowTests.
Inductive ending := LoadError | NoSuites | ListedSuites | NoTests | ListedTests (text : str) | Started (tests : list test).
Definition lit_run (describe : test -> str * str * str) (selected : test -> bool) (m : mode) (registry : option (list (str * list test))) : ending :=
  match registry with
  | None => LoadError
  | Some suites =>
      let is_empty := match suites with [] => true | _ => false end in
      if is_empty then NoSuites
      else match m with
           | ShowSuites => ListedSuites
           | _ => if is_empty then NoTests
                  else match m with ShowTests => ListedTests (print_tests describe (flat_map snd suites)) | _ => Started (flat_map snd suites) end
           end
  end.
(** The exit code of the process: 100 (lit.rs:126-129), that of [start], or 1 for an error returned from main *)
Definition exit_code (of_start : list test -> exit) (e : ending) : nat :=
  match e with
  | LoadError => 1 | NoSuites => 100 | ListedSuites => 0 | NoTests => 1 | ListedTests _ => 0
  | Started ts => match of_start ts with Success => 0 | Failure => 1 | Error => 1 end
  end.
End Report.
