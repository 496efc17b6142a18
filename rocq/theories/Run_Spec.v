(** What is expected of running and reporting tests. *)
From Coq Require Import Permutation String.
From Verif Require Import Base Text_Model Cursor_Model Run_Model.
From Verif Require BoolExpr_Model BoolExpr_Spec.

(** ** One test *)
(** The raw status of a test with [n] allowed retries whose executions give [runs]: the outcome of the
    last of [count] executions, all earlier ones having failed. *)
Definition raw_status (n : nat) (runs : nat -> option status) (r : option status) (count : nat) : Prop :=
  exists last, count = S last /\ last <= n /\ (forall i, i < last -> runs i = Some Fail) /\
    (runs last = Some Fail -> last = n) /\
    r = match runs last with Some Pass => Some (if last =? 0 then Pass else FlakyPass) | x => x end.
(** The documented table: what is reported when the test is (not) expected to fail. *)
Definition xfail_table (expected : Prop) (raw final : status) : Prop :=
  (expected /\ ((raw = Pass \/ raw = FlakyPass) /\ final = Xpass \/ raw = Fail /\ final = Xfail \/
                raw <> Pass /\ raw <> FlakyPass /\ raw <> Fail /\ final = raw)) \/
  (~ expected /\ final = raw).
(** A feature condition holds of the available features. *)
Definition met (rmatch : str -> str -> bool) (features : list str) (e : BoolExpr_Model.expr) : Prop :=
  BoolExpr_Spec.holds rmatch (fun f => In f features) e.

(** ** A whole run *)
Section R.
Context {test : Type}.
Variable selected : test -> bool.
Variable exec : test -> option status.
(** Every way the pool of workers can get from one state to another. *)
Inductive steps : pool test -> pool test -> Prop :=
| steps_refl p : steps p p
| steps_more p q r : steps p q -> step selected exec q r -> steps p r.
(** A completed run with [n] workers. *)
Definition completed (n : nat) (tests : list test) (p : pool test) : Prop := steps (start_pool n tests) p /\ finished p.
(** All that is reported, group after group. *)
Definition reported (r : results) : list (test * status) := concat (map snd r).
End R.

(** ** Shell text *)
(** How the shell reads the text of the generated script. *)
Inductive reads : shell -> str -> Prop :=
| R_builtin t : reads (Builtin t) t
| R_user c : reads (User c) c
| R_and a b ta tb : reads a ta -> reads b tb -> reads (And a b) (ta ++ of_string " && " ++ tb)
| R_group a ta open close : reads a ta ->
    In open [nl; nl ++ of_string "  "] -> In close [nl; of_string ";" ++ nl] ->
    reads (Group a) (of_string "{" ++ open ++ ta ++ close ++ of_string "}").
(** Statements, each ended by a semicolon or the end of its line. *)
Inductive reads_all : list shell -> str -> Prop :=
| R_nil : reads_all [] nl
| R_last e t : reads e t -> reads_all [e] (t ++ nl)
| R_next e l t tl : reads e t -> reads_all l tl -> reads_all (e :: l) (t ++ of_string ";" ++ nl ++ tl).

(** Running commands one after the other until one fails. *)
Inductive until_failure {world : Type} (sem : str -> world -> world * bool) : list str -> world -> world -> bool -> list str -> Prop :=
| U_nil st : until_failure sem [] st st true []
| U_fail c l st st' : sem c st = (st', false) -> until_failure sem (c :: l) st st' false [c]
| U_ok c l st st1 st2 ok tr : sem c st = (st1, true) -> until_failure sem l st1 st2 ok tr -> until_failure sem (c :: l) st st2 ok (c :: tr).
