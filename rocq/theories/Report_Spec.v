(** What lit's report says.  Uses only the statuses of the model. *)
From Coq Require Import String.
From Verif Require Import Base Run_Model.
Notation length := List.length.
Open Scope string_scope. Open Scope list_scope. Open Scope nat_scope.
(** Decimal numbers *)
Inductive decimal : nat -> str -> Prop :=
| d_one d : d < 10 -> decimal d [N.of_nat (48 + d)]
| d_more n t d : 0 < n -> d < 10 -> decimal n t -> decimal (10 * n + d) (t ++ [N.of_nat (48 + d)]).
Definition title (s : status) : str := of_string
  match s with
  | Unresolved => "Unresolved" | Excluded => "Excluded" | Skipped => "Skipped" | Pass => "Passed" | FlakyPass => "Passed With Retry" | Fail => "Failed"
  | Xfail => "Failed As Expected" | Xpass => "Unexpectedly Passed" | Timeout => "Timed Out" | Unsupported => "Unsupported"
  end.
(** The order in which statuses are listed *)
Definition order : list status := [Unresolved; Excluded; Skipped; Pass; FlakyPass; Fail; Xfail; Xpass; Timeout; Unsupported].
Definition failing (s : status) : Prop := In s [Unresolved; Timeout; Fail; Xpass].
Definition line (s : str) : str := s ++ [10%N].
Lemma status_dec (a b : status) : {a = b} + {a <> b}.
Proof. decide equality. Defined.
(** The names of the tests that ended with a status; a report is a list of names and statuses *)
Definition named (s : status) (l : list (str * status)) : list str := map fst (filter (fun x => if status_dec (snd x) s then true else false) l).
Definition present (l : list (str * status)) (s : status) : Prop := named s l <> [].
(** The list of the tests with one status *)
Inductive group (s : status) (names : list str) : str -> Prop :=
| g_text d : decimal (length names) d ->
    group s names (line (of_string "******************** " ++ title s ++ of_string " Tests (" ++ d ++ of_string "):") ++ concat (map (fun n => line (of_string "  " ++ n)) names) ++ line []).
(** The lists of several statuses, those of [shown] with a test *)
Inductive groups (l : list (str * status)) (shown : status -> Prop) : list status -> str -> Prop :=
| gs_nil : groups l shown [] []
| gs_skip s r t : ~ (present l s /\ shown s) -> groups l shown r t -> groups l shown (s :: r) t
| gs_take s r g t : present l s -> shown s -> group s (named s l) g -> groups l shown r t -> groups l shown (s :: r) (g ++ t).
(** The table: titles in a column of width [w], numbers in one of width [v] *)
Inductive rows (percent : nat -> nat -> str) (l : list (str * status)) (w v : nat) : list status -> str -> Prop :=
| r_nil : rows percent l w v [] []
| r_skip s r t : ~ present l s -> rows percent l w v r t -> rows percent l w v (s :: r) t
| r_take s r t d i j : present l s -> decimal (length (named s l)) d -> length (title s) + i = w -> length d + j = v -> rows percent l w v r t ->
    rows percent l w v (s :: r)
      (line (of_string "  " ++ title s ++ repeat 32%N i ++ of_string ": " ++ repeat 32%N j ++ d ++ of_string " (" ++ percent (length (named s l)) (length l) ++ of_string "%)") ++ t).
(** The columns are as wide as the longest of their texts. *)
Definition widths (l : list (str * status)) (w v : nat) : Prop :=
  (exists s, present l s /\ length (title s) = w) /\ (exists s d, present l s /\ decimal (length (named s l)) d /\ length d = v).
Inductive report (percent : nat -> nat -> str) (shown : status -> Prop) (l : list (str * status)) : str -> Prop :=
| rp_text g d w v t : groups l shown order g -> decimal (length l) d -> widths l w v -> rows percent l w v order t ->
    report percent shown l (g ++ line [] ++ line (of_string "Total Discovered Tests: " ++ d) ++ t).
(** The words for statuses in the lines that are printed while tests are run *)
Definition short (s : status) : str := of_string
  match s with
  | Unresolved => "UNRESOLVED" | Excluded => "EXCLUDED" | Skipped => "SKIPPED" | Pass => "PASS" | FlakyPass => "FLAKYPASS" | Fail => "FAIL"
  | Xfail => "XFAIL" | Xpass => "XPASS" | Timeout => "TIMEOUT" | Unsupported => "UNSUPPORTED"
  end.
(** What is printed about a test that has been run, depending on --quiet, --show-all and --verbose; [more]: all that is known about it *)
Inductive told (quiet all verbose : bool) (name more : str) (s : status) : str -> Prop :=
| t_silent : ~ failing s -> quiet = true -> all = false -> told quiet all verbose name more s []
| t_line : failing s \/ quiet = false -> all = false -> ~ (failing s /\ verbose = true) -> told quiet all verbose name more s (line (short s ++ of_string ": " ++ name))
| t_all : all = true \/ failing s /\ verbose = true -> told quiet all verbose name more s (line (short s ++ of_string ": " ++ name) ++ line more).
(** A listed test *)
Definition listed (suite path format : str) : str := line (of_string "  " ++ suite ++ of_string "::" ++ path ++ of_string " (format=" ++ format ++ of_string ")").
