(** What the text of a result says.  Uses only the record of the model. *)
From Coq Require Import String.
From Verif Require Import Base Run_Model Report_Spec Detail_Model.
Notation length := List.length.
Open Scope string_scope. Open Scope list_scope. Open Scope nat_scope.

(** How a process ended is not said if it ended with code 0. *)
Inductive exit_line : option Z -> str -> Prop :=
| el_zero : exit_line (Some 0%Z) []
| el_positive n d : 0 < n -> decimal n d -> exit_line (Some (Z.of_nat n)) (line (of_string "Exit Code: " ++ d))
| el_negative n d : 0 < n -> decimal n d -> exit_line (Some (- Z.of_nat n)%Z) (line (of_string "Exit Code: -" ++ d))
| el_none : exit_line None (line (of_string "Exit Code: N/A")).
(** How long it took: whole seconds until a timeout; else milliseconds if it took less than a second *)
Inductive time_line (fixed2 : nat * N -> str) : status -> option (nat * N) -> str -> Prop :=
| tl_timeout s n d : decimal s d -> time_line fixed2 Timeout (Some (s, n)) (line (of_string "Timeout: Reached timeout after " ++ d ++ of_string "s"))
| tl_millis u n m d : u <> Timeout -> (N.of_nat m * 1000000 <= n < (N.of_nat m + 1) * 1000000)%N -> decimal m d -> time_line fixed2 u (Some (0, n)) (line (of_string "Elapsed: " ++ d ++ of_string "ms"))
| tl_seconds u s n : u <> Timeout -> 0 < s -> time_line fixed2 u (Some (s, n)) (line (of_string "Elapsed: " ++ fixed2 (s, n) ++ of_string "s"))
| tl_unknown u : u <> Timeout -> time_line fixed2 u None (line []).
Definition rule : str := of_string "----------------------------".
Inductive output (name : string) : str -> str -> Prop :=
| ou_none : output name [] []
| ou_text o : o <> [] -> output name o (line (of_string "Command Output (" ++ of_string name ++ of_string ") ----") ++ line o ++ line rule).
(** The code of the process, if there was one that ended by itself *)
Definition code (r : result) (c : option Z) : Prop := rs_exit r = Some c \/ rs_exit r = None /\ c = None.
Inductive shown (fixed2 : nat * N -> str) (r : result) : str -> Prop :=
| sh_text c x t o e : code r c -> exit_line c x -> time_line fixed2 (rs_status r) (rs_elapsed r) t ->
    output "stdout" (rs_stdout r) o -> output "stderr" (rs_stderr r) e -> shown fixed2 r (x ++ t ++ o ++ e).
(** [l] is one of the lines of [t] *)
Definition has_line (l t : str) : Prop := exists a b, [10%N] ++ t ++ [10%N] = a ++ [10%N] ++ l ++ [10%N] ++ b.
(** The times are the same as far as they are shown: seconds until a timeout, milliseconds below a second *)
Definition same_time (r r' : result) : Prop :=
  match rs_elapsed r, rs_elapsed r' with
  | Some (s, n), Some (s', n') =>
      (rs_status r = Timeout -> s = s') /\ (rs_status r <> Timeout -> (s = 0 <-> s' = 0) /\ (s = 0 -> exists m, (m * 1000000 <= n < (m + 1) * 1000000 /\ m * 1000000 <= n' < (m + 1) * 1000000)%N))
  | None, None => True
  | _, _ => False
  end.
(** How numbers of seconds are written *)
Definition plain (s : str) : Prop := s <> [] /\ forall c, In c s -> (c = 46 \/ 48 <= c <= 57)%N.
