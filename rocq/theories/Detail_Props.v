(** C105: what is told about a test's result in detail. *)
From Coq Require Import String.
From Verif Require Import Base Cursor_Model Num_Model Run_Model Report_Model Report_Spec Report_Props Suites_Spec Suites_Proofs Detail_Model Detail_Spec Detail_Proofs.
Notation length := List.length.
Open Scope string_scope. Open Scope list_scope. Open Scope nat_scope.

(** The text is the specified one. *)
Theorem C105_text fixed2 r t : shown fixed2 r t <-> details fixed2 r = Some t.
Proof. apply shown_details. Qed.
Print Assumptions C105_text.
(** There is one, but for a timeout without a time ... *)
Theorem C105_aborts fixed2 r : details fixed2 r = None <-> rs_status r = Timeout /\ rs_elapsed r = None.
Proof. apply details_none. Qed.
Print Assumptions C105_aborts.
(** ... which no execution ends with: tests that are not executed are unresolved or unsupported, and what is made of
    a status later (retries, tests that should fail) is a timeout only if it was one. *)
Theorem C105_told fixed2 h s : (forall u text, h = Said u text -> u = Unresolved \/ u = Unsupported) -> (s = Timeout -> rs_status (result_of h) = Timeout) ->
  exists t, details fixed2 (mkResult s (rs_exit (result_of h)) (rs_stdout (result_of h)) (rs_stderr (result_of h)) (rs_elapsed (result_of h))) = Some t.
Proof.
  intros A B. destruct (details _ _) as [t|] eqn:D; [now exists t|exfalso]. apply details_none in D as [D1 D2]. cbn [rs_status rs_elapsed] in *. specialize (B D1).
  destruct h as [u text| | |code o e t|st o e t|o e text t]; try discriminate; cbn in B.
  destruct (A u text eq_refl) as [-> | ->]; discriminate.
Qed.
Print Assumptions C105_told.
(** The text tells how the process ended, whether it was a timeout, the time as far as it is shown, and all the outputs,
    if no line of the standard output is the line that ends it. *)
Theorem C105_read_back_partial fixed2 r r' t : (forall e, plain (fixed2 e)) -> ~ has_line rule (rs_stdout r) -> ~ has_line rule (rs_stdout r') ->
  details fixed2 r = Some t -> details fixed2 r' = Some t ->
  (forall c, code r c <-> code r' c) /\ (rs_status r = Timeout <-> rs_status r' = Timeout) /\ same_time r r' /\ rs_stdout r = rs_stdout r' /\ rs_stderr r = rs_stderr r'.
Proof.
  intros P H H' A B. apply shown_details in A, B. destruct (shown_same _ _ _ _ P H H' A B) as (K & Q). split; [|exact Q].
  intros c. rewrite !exit_code_code, K. reflexivity.
Qed.
Print Assumptions C105_read_back_partial.
(** A standard output with such a line can look as if the rest of it was the error output. *)
Theorem C105_read_back_refuted : exists o o' e e', o <> o' /\ e <> e' /\ forall fixed2 s x t,
  details fixed2 (mkResult s x o e t) = details fixed2 (mkResult s x o' e' t).
Proof.
  exists (of_string "a" ++ [10%N] ++ rule ++ [10%N] ++ of_string "Command Output (stderr) ----" ++ [10%N] ++ of_string "b"), (of_string "a"), [], (of_string "b").
  split; [discriminate|]. split; [discriminate|]. intros f s x t. unfold details, time_text, is_timeout. cbn [rs_status rs_elapsed rs_stdout rs_stderr].
  destruct s, t; reflexivity.
Qed.
Print Assumptions C105_read_back_refuted.
(** What a process printed is in the text, whatever its status becomes. *)
Theorem C105_outputs fixed2 r t o : details fixed2 r = Some t -> o = rs_stdout r \/ o = rs_stderr r -> exists a b, t = a ++ o ++ b.
Proof.
  intros D E. apply shown_details in D. destruct D as [c x u p q C X T O P].
  apply output_shape in O, P. destruct E as [-> | ->].
  - destruct O as [[-> _]|[_ ->]]; [now exists [], (x ++ u ++ p ++ q)|]. unfold line. rewrite <- !app_assoc.
    exists (x ++ u ++ of_string "Command Output (" ++ of_string "stdout" ++ of_string ") ----" ++ [10%N]). eexists. rewrite <- !app_assoc. reflexivity.
  - destruct P as [[-> _]|[_ ->]]; [now exists [], (x ++ u ++ p ++ q)|]. unfold line. rewrite <- !app_assoc.
    exists (x ++ u ++ p ++ of_string "Command Output (" ++ of_string "stderr" ++ of_string ") ----" ++ [10%N]). eexists. rewrite <- !app_assoc. reflexivity.
Qed.
Print Assumptions C105_outputs.

(** Concrete cases. *)
Example detail_case : let r := mkResult Fail (Some (Some 3%Z)) (of_string "out") (of_string "err") (Some (0, 12999999%N)) in
  ~ has_line rule (rs_stdout r) /\ details (fun _ => of_string "1.50") r = Some
    (line (of_string "Exit Code: 3") ++ line (of_string "Elapsed: 12ms") ++ line (of_string "Command Output (stdout) ----") ++ line (of_string "out") ++ line rule
     ++ line (of_string "Command Output (stderr) ----") ++ line (of_string "err") ++ line rule).
Proof.
  split; [|vm_compute; reflexivity]. intros (a & b & E). apply (f_equal (@List.length N)) in E. cbn [rs_stdout] in E. rewrite !app_length in E. cbn in E. lia.
Qed.
Example timeout_case : details (fun _ => of_string "1.50") (result_of (TimedOut (Some None) [] [] (5, 7%N)))
  = Some (line (of_string "Exit Code: N/A") ++ line (of_string "Timeout: Reached timeout after 5s")).
Proof. vm_compute. reflexivity. Qed.
Example seconds_case : plain (of_string "1.50") /\ details (fun _ => of_string "1.50") (result_of (Exited (Some 0%Z) [] [] (1, 499999999%N))) = Some (line (of_string "Elapsed: 1.50s")).
Proof. split; [|vm_compute; reflexivity]. split; [discriminate|]. intros c I. cbn in I. intuition lia. Qed.
