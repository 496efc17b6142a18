(** C27-C30, C43, C52: running tests and reporting on them. *)
From Coq Require Import Permutation Sorted String Wellfounded.
From Verif Require Import Base Text_Model Cursor_Model Run_Model Run_Spec.
From Verif Require BoolExpr_Model BoolExpr_Spec BoolExpr_Proofs BoolExpr_Props.
Ltac splits := repeat match goal with |- _ /\ _ => split end.

Lemma status_eqb_eq a b : status_eqb a b = true <-> a = b.
Proof. split; [|intros ->; apply Nat.eqb_refl]. destruct a, b; intros H; try reflexivity; discriminate. Qed.
Lemma status_eqb_neq a b : status_eqb a b = false <-> a <> b.
Proof. rewrite <- not_true_iff_false, status_eqb_eq. tauto. Qed.
Lemma status_eqb_refl a : status_eqb a a = true.
Proof. now apply status_eqb_eq. Qed.

(** * C28 *)
Lemma run_loop_spec runs n : forall fuel k, k <= n -> n < k + fuel -> (forall i, i < k -> runs i = Some Fail) ->
  exists last, k <= last <= n /\ (forall i, i < last -> runs i = Some Fail) /\ (runs last = Some Fail -> last = n) /\
    run_loop runs n k fuel = (runs last, (if match runs last with Some Fail => true | _ => false end then last + 1 else last), S last).
Proof.
  induction fuel as [|f IH]; intros k K F P; [lia|]. cbn [run_loop]. destruct (runs k) as [s|] eqn:R.
  - destruct (status_eqb s Fail) eqn:Q.
    + apply status_eqb_eq in Q as ->. destruct (n <? k + 1) eqn:Z.
      * apply Nat.ltb_lt in Z. exists k. rewrite R. splits; auto; lia.
      * apply Nat.ltb_ge in Z. destruct (IH (k + 1)) as (last & L & A & B & C); try lia.
        { intros i I. destruct (Nat.eq_dec i k) as [->|]; auto. apply P. lia. }
        exists last. splits; auto; lia.
    + exists k. rewrite R. splits; auto; try lia.
      * intros H. injection H as ->. discriminate.
      * destruct s; try reflexivity. discriminate.
  - exists k. rewrite R. splits; auto; try lia. discriminate.
Qed.
(** C28: executed at most n + 1 times, again only after a failure, and stopped before n + 1 only by
    something else than a failure; a pass after a failure is flaky. *)
Theorem C28_retries n runs : raw_status n runs (fst (run_test (Some n) runs)) (snd (run_test (Some n) runs)).
Proof.
  unfold run_test. destruct (run_loop_spec runs n (S n) 0 ltac:(lia) ltac:(lia) ltac:(intros; lia)) as (last & L & A & B & E). rewrite E.
  exists last. destruct (runs last) as [s|] eqn:R; cbn [fst snd]; splits; auto; try lia.
  destruct s; cbn [status_eqb rank Nat.eqb andb]; try (rewrite andb_false_r; reflexivity).
  - rewrite andb_true_r. destruct last; reflexivity.
Qed.
(** No retries are allowed unless the test asks for them. *)
Theorem C28_default runs : run_test None runs = run_test (Some 0) runs.
Proof. reflexivity. Qed.
Theorem C28_flaky n runs : (forall i, runs i <> Some FlakyPass) ->
  (fst (run_test (Some n) runs) = Some FlakyPass <->
     exists k, 0 < k <= n /\ runs k = Some Pass /\ forall i, i < k -> runs i = Some Fail).
Proof.
  intros NF. destruct (C28_retries n runs) as (last & _ & L & A & B & ->). split.
  - destruct (runs last) as [[]|] eqn:R; try discriminate; [|intros; exfalso; now apply (NF last)].
    destruct last; [discriminate|]. intros _. exists (S last). splits; auto; lia.
  - intros (k & K & P & F). assert (last = k) as ->.
    { destruct (lt_eq_lt_dec last k) as [[H|H]|H]; auto.
      - specialize (F last H). specialize (B F). lia.
      - rewrite (A k H) in P. discriminate. }
    rewrite P. destruct k; [lia|reflexivity].
Qed.
Example C28_ex : run_test (Some 2) (fun i => Some (if i <? 2 then Fail else Pass)) = (Some FlakyPass, 3).
Proof. reflexivity. Qed.

(** * C27 *)
Lemma missing_none rmatch F l : BoolExpr_Model.missing_features rmatch F l = None <-> Forall (met rmatch F) l.
Proof. rewrite (proj1 (BoolExpr_Props.C04_missing_features rmatch F l)), Forall_forall. reflexivity. Qed.
Lemma unsupported_none rmatch F l : BoolExpr_Model.unsupported_features rmatch F l = None <-> Forall (fun e => ~ met rmatch F e) l.
Proof. rewrite (proj1 (BoolExpr_Props.C04_unsupported_features rmatch F l)), Forall_forall. reflexivity. Qed.
(** C27: a test with an unmet requirement or a met exclusion is reported unsupported and not executed. *)
Theorem C27_unsupported rmatch i sc : si_readable i = true -> si_script i = Some sc ->
  (Exists (fun e => ~ met rmatch (si_features i) e) (sc_requires sc) \/ Exists (met rmatch (si_features i)) (sc_unsupported sc)) ->
  sh_execute rmatch i = (Val Unsupported, 0).
Proof.
  intros R S H. unfold sh_execute. rewrite R, S. cbn [negb].
  destruct (BoolExpr_Model.missing_features _ _ _) eqn:M; auto. apply missing_none in M.
  destruct (BoolExpr_Model.unsupported_features _ _ _) eqn:U; auto. apply unsupported_none in U.
  exfalso. rewrite Forall_forall in M, U. destruct H as [H|H]; apply Exists_exists in H as (e & I & H).
  - apply H. auto.
  - apply (U e I). auto.
Qed.
(** C27: any other test is executed under the retry rule, and what is reported follows the table. *)
Theorem C27_table rmatch i sc : si_readable i = true -> si_script i = Some sc ->
  Forall (met rmatch (si_features i)) (sc_requires sc) -> Forall (fun e => ~ met rmatch (si_features i) e) (sc_unsupported sc) ->
  si_no_execute i = false -> si_extension i = true -> si_temp i = true -> si_substitutes i = true ->
  exists raw count, raw_status (match sc_retries sc with Some n => n | None => 0 end) (si_runs i) raw count /\
    snd (sh_execute rmatch i) = count /\
    match raw with
    | None => fst (sh_execute rmatch i) = Err
    | Some s => exists final, fst (sh_execute rmatch i) = Val final /\
        xfail_table (si_xfail_not i = false /\ Exists (met rmatch (si_features i)) (sc_xfails sc)) s final
    end.
Proof.
  intros R S M U NE X T SU. apply missing_none in M. apply unsupported_none in U.
  unfold sh_execute. rewrite R, S, M, U, NE, X, T, SU. cbn [negb andb].
  set (n := match sc_retries sc with Some n => n | None => 0 end).
  assert (E : run_test (sc_retries sc) (si_runs i) = run_test (Some n) (si_runs i)) by (unfold n; destruct (sc_retries sc); reflexivity).
  rewrite E. pose proof (C28_retries n (si_runs i)) as H. destruct (run_test (Some n) (si_runs i)) as [raw count]. cbn [fst snd] in H.
  exists raw, count. split; auto. destruct raw as [s|]; cbn [fst snd]; auto. split; auto. eexists. split; [reflexivity|].
  assert (XF : existsb (BoolExpr_Model.evaluate rmatch (si_features i)) (sc_xfails sc) = true <-> Exists (met rmatch (si_features i)) (sc_xfails sc)).
  { rewrite existsb_exists, Exists_exists. split; intros (e & I & Q); exists e; split; auto; now apply BoolExpr_Proofs.evaluate_holds. }
  unfold xfail_table. destruct (si_xfail_not i).
  { right. split; auto. intros [? _]; discriminate. }
  destruct (existsb _ _) eqn:Q.
  - left. split; [split; auto; now apply XF|]. destruct s; auto; right; right; splits; auto; discriminate.
  - right. split; auto. intros [_ Z]. apply XF in Z. discriminate.
Qed.
(** A script that does not parse is reported as unresolved; with --no-execute nothing runs. *)
Theorem C27_not_run rmatch i : si_readable i = true -> (si_script i = None -> sh_execute rmatch i = (Val Unresolved, 0)) /\
  (si_no_execute i = true -> snd (sh_execute rmatch i) = 0).
Proof.
  intros R. unfold sh_execute. rewrite R. cbn [negb]. split; [intros ->; reflexivity|]. intros NE. rewrite NE.
  destruct (si_script i); auto. destruct (BoolExpr_Model.missing_features _ _ _); auto. destruct (BoolExpr_Model.unsupported_features _ _ _); auto.
Qed.
(** A test file without an extension aborts lit. *)
Theorem C53_extension_refuted rmatch i sc : si_readable i = true -> si_script i = Some sc ->
  Forall (met rmatch (si_features i)) (sc_requires sc) -> Forall (fun e => ~ met rmatch (si_features i) e) (sc_unsupported sc) ->
  si_no_execute i = false -> si_extension i = false -> sh_execute rmatch i = (Panic, 0).
Proof.
  intros R S M U NE X. apply missing_none in M. apply unsupported_none in U. unfold sh_execute. rewrite R, S, M, U, NE, X, andb_false_r. reflexivity.
Qed.
(** Otherwise executing a shell test answers a status or an error. *)
Theorem C53_no_abort_partial rmatch i : si_extension i = true -> si_temp i = true -> fst (sh_execute rmatch i) <> Panic.
Proof.
  intros X T. unfold sh_execute. destruct (si_readable i); [|discriminate]. cbn [negb]. destruct (si_script i) as [sc|]; [|discriminate].
  destruct (BoolExpr_Model.missing_features _ _ _); [discriminate|]. destruct (BoolExpr_Model.unsupported_features _ _ _); [discriminate|].
  destruct (si_no_execute i); [discriminate|]. rewrite X, T. cbn [negb andb]. destruct (si_substitutes i); [|discriminate]. cbn [negb].
  destruct (run_test (sc_retries sc) (si_runs i)) as [[s|] n]; discriminate.
Qed.
(** A shell test is never itself reported as skipped or excluded, when processes end in one of the
    ways processes end. *)
Theorem C30_own_statuses rmatch i s : (forall k, In (si_runs i k) [Some Pass; Some Fail; Some Unresolved; Some Timeout; None]) ->
  fst (sh_execute rmatch i) = Val s -> s <> Skipped /\ s <> Excluded.
Proof.
  intros P. unfold sh_execute. destruct (si_readable i); [|discriminate]. cbn [negb].
  destruct (si_script i) as [sc|]; [|cbn; intros E; injection E as <-; split; discriminate].
  destruct (BoolExpr_Model.missing_features _ _ _); [cbn; intros E; injection E as <-; split; discriminate|].
  destruct (BoolExpr_Model.unsupported_features _ _ _); [cbn; intros E; injection E as <-; split; discriminate|].
  destruct (si_no_execute i); [cbn; intros E; injection E as <-; split; discriminate|].
  destruct (si_temp i && si_extension i); [|discriminate]. destruct (si_substitutes i); [|discriminate]. cbn [negb].
  set (n := match sc_retries sc with Some n => n | None => 0 end).
  assert (E : run_test (sc_retries sc) (si_runs i) = run_test (Some n) (si_runs i)) by (unfold n; destruct (sc_retries sc); reflexivity).
  rewrite E. destruct (C28_retries n (si_runs i)) as (last & _ & _ & _ & _ & R). destruct (run_test (Some n) (si_runs i)) as [[s0|] c]; [|discriminate].
  cbn [fst] in *. intros Q. injection Q as <-. specialize (P last). cbn [In] in P.
  destruct P as [P|[P|[P|[P|[P|[]]]]]]; rewrite <- P in R; try discriminate; try injection R as ->; destruct (si_xfail_not i), (existsb (BoolExpr_Model.evaluate rmatch (si_features i)) (sc_xfails sc)), (last =? 0); split; discriminate.
Qed.
Example C27_ex : sh_execute (fun _ _ => false) (mkSit true
    (Some (mkScript [BoolExpr_Model.Var (of_string "a")] [BoolExpr_Model.Var (of_string "b")] [BoolExpr_Model.Lit true] (Some 1)))
    [of_string "a"] false true true true false (fun _ => Some Fail)) = (Val Xfail, 2).
Proof. reflexivity. Qed.

(** * C30, C29 *)
Section R.
Context {test : Type}.
Variable selected : test -> bool.
Variable exec : test -> option status.
Notation steps := (steps selected exec).
Notation step := (step selected exec).

Definition running (ws : list (worker test)) : list test := flat_map (fun w => match w with Running t => [t] | _ => [] end) ws.
Lemma running_app a b : running (a ++ b) = running a ++ running b.
Proof. apply flat_map_app. Qed.
Definition rightly (p : pool test) (x : test * status) : Prop :=
  (selected (fst x) = false /\ snd x = Excluded) \/ (selected (fst x) = true /\ exec (fst x) = Some (snd x)).
Definition good (n : nat) (tests : list test) (p : pool test) : Prop :=
  Permutation tests (po_queue p ++ running (po_workers p) ++ map fst (po_sent p) ++ po_errors p) /\
  Forall (rightly p) (po_sent p) /\
  Forall (fun t => selected t = true /\ exec t = None) (po_errors p) /\
  (po_stop p = true <-> po_errors p <> []) /\
  (Exists (fun w => w = Done) (po_workers p) -> po_queue p = [] \/ po_stop p = true) /\
  length (po_workers p) = n.
Lemma good_start n tests : good n tests (start_pool n tests).
Proof.
  unfold good, start_pool. cbn [po_queue po_workers po_sent po_errors po_stop map app]. rewrite repeat_length. splits; auto.
  - assert (running (repeat (@Idle test) n) = []) as -> by (induction n; auto). rewrite !app_nil_r. apply Permutation_refl.
  - split; [discriminate|congruence].
  - intros E. apply Exists_exists in E as (w & I & ->). apply repeat_spec in I. discriminate.
Qed.
Lemma exists_mid {A} (P : A -> Prop) l1 x l2 : Exists P (l1 ++ x :: l2) <-> Exists P l1 \/ P x \/ Exists P l2.
Proof. rewrite Exists_app, Exists_cons. tauto. Qed.
Lemma good_step n tests p q : good n tests p -> step p q -> good n tests q.
Proof.
  intros (G1 & G2 & G3 & G4 & G5 & G6) S. destruct S; unfold good, rightly in *; cbn [po_queue po_workers po_sent po_errors po_stop] in *;
    rewrite ?running_app, ?app_length in *; cbn [running flat_map app length] in *; fold (running ws2) in *;
    rewrite ?exists_mid in *; splits; auto.
  - etransitivity; [exact G1|]. cbn. rewrite <- !app_assoc. cbn. rewrite !(app_assoc q (running ws1)). apply Permutation_middle.
  - intros [E|[E|E]]; try discriminate; destruct G5; auto; discriminate.
  - rewrite map_app. cbn [map fst]. etransitivity; [exact G1|]. apply Permutation_app_head. rewrite <- !app_assoc. apply Permutation_app_head. cbn.
    rewrite !(app_assoc (running ws2)). apply Permutation_middle.
  - apply Forall_app. split; auto.
  - intros [E|[E|E]]; try discriminate; destruct G5; auto.
  - rewrite map_app. cbn [map fst]. etransitivity; [exact G1|]. apply Permutation_app_head. rewrite <- !app_assoc. apply Permutation_app_head. cbn.
    rewrite !(app_assoc (running ws2)). apply Permutation_middle.
  - apply Forall_app. split; auto.
  - intros [E|[E|E]]; try discriminate; destruct G5; auto.
  - etransitivity; [exact G1|]. apply Permutation_app_head. rewrite <- !app_assoc. apply Permutation_app_head. cbn.
    rewrite !(app_assoc (running ws2)), (app_assoc (running ws2 ++ map fst se)). apply Permutation_cons_append.
  - apply Forall_app. split; auto.
  - split; auto. intros _. destruct er; discriminate.
Qed.
Lemma good_steps n tests p q : steps p q -> good n tests p -> good n tests q.
Proof. induction 1; eauto using good_step. Qed.
(** What is left at the end. *)
Lemma completed_good n tests p : completed selected exec n tests p -> 0 < n ->
  Permutation tests (po_queue p ++ map fst (po_sent p) ++ po_errors p) /\ Forall (rightly p) (po_sent p) /\
  Forall (fun t => selected t = true /\ exec t = None) (po_errors p) /\ (po_errors p = [] -> po_queue p = []).
Proof.
  intros [S F] N. destruct (good_steps n tests _ _ S (good_start n tests)) as (G1 & G2 & G3 & G4 & G5 & G6).
  assert (R : running (po_workers p) = []). { clear -F. unfold finished in F. revert F. generalize (po_workers p). intros ws F. induction F as [|w l -> F IH]; auto. }
  rewrite R in G1. splits; auto. intros E. destruct G5 as [Q|Q]; auto.
  - unfold finished in F. destruct (po_workers p) as [|w ws]; [simpl in G6; lia|]. inversion F; subst. constructor. reflexivity.
  - apply G4 in Q. congruence.
Qed.

(** ** Grouping *)
Notation res := (@results test).
Definition keys (r : res) : list status := map fst r.
Definition ascending (r : res) : Prop := StronglySorted (fun a b => rank a < rank b) (keys r).
Definition own_key (r : res) : Prop := forall k v, In (k, v) r -> Forall (fun x => snd x = k) v.
Definition filled (r : res) : Prop := forall k v, In (k, v) r -> v <> [].
Lemma rank_inj a b : rank a = rank b -> a = b.
Proof. intros H. apply status_eqb_eq. unfold status_eqb. now apply Nat.eqb_eq. Qed.
Lemma add_reported s l (r : res) : Permutation (reported (add s l r)) (l ++ reported r).
Proof.
  induction r as [|[k v] r IH]; cbn [add]; [reflexivity|]. destruct (rank s <? rank k); [reflexivity|].
  destruct (status_eqb s k); unfold reported in *; cbn [map snd concat].
  - rewrite <- app_assoc, (app_assoc l v). rewrite (app_assoc v l). apply Permutation_app_tail, Permutation_app_comm.
  - rewrite IH, !app_assoc. apply Permutation_app_tail, Permutation_app_comm.
Qed.
Lemma add_keys s l (r : res) k : In k (keys (add s l r)) <-> k = s \/ In k (keys r).
Proof.
  induction r as [|[k' v] r IH]; cbn [add keys map fst In]; [intuition|]. destruct (rank s <? rank k'); [cbn; intuition|].
  destruct (status_eqb s k') eqn:E; cbn [keys map fst In].
  - apply status_eqb_eq in E as ->. intuition.
  - fold (keys (add s l r)). fold (keys r). rewrite IH. intuition.
Qed.
Lemma add_ascending s l (r : res) : ascending r -> ascending (add s l r).
Proof.
  unfold ascending. induction r as [|[k v] r IH]; intros A; cbn [add].
  - cbn. constructor; constructor.
  - cbn [keys map fst] in A. apply StronglySorted_inv in A as [A F]. destruct (rank s <? rank k) eqn:Q.
    + apply Nat.ltb_lt in Q. cbn. constructor; [constructor; auto|]. constructor; auto. rewrite Forall_forall in *. intros y Y. specialize (F y Y). lia.
    + destruct (status_eqb s k) eqn:E; cbn [keys map fst]; constructor; auto.
      rewrite Forall_forall in *. intros y Y. apply add_keys in Y as [->|Y]; auto.
      apply Nat.ltb_ge in Q. apply status_eqb_neq in E. assert (rank s <> rank k) by (intros H; now apply rank_inj in H). lia.
Qed.
Lemma add_own s l (r : res) : own_key r -> Forall (fun x => snd x = s) l -> own_key (add s l r).
Proof.
  intros O L. induction r as [|[k v] r IH]; cbn [add].
  - intros k v [E|[]]. injection E as <- <-. auto.
  - assert (O' : own_key r) by (intros k' v' I; apply O; now right). destruct (rank s <? rank k).
    { intros k' v' [E|I]; [injection E as <- <-; auto|now apply O]. }
    destruct (status_eqb s k) eqn:E.
    + apply status_eqb_eq in E as ->. intros k' v' [E|I]; [|apply O; now right]. injection E as <- <-. apply Forall_app. split; auto. apply O. now left.
    + intros k' v' [Q|I]; [injection Q as <- <-; apply O; now left|]. now apply IH.
Qed.
Lemma add_filled s l (r : res) : l <> [] -> filled r -> filled (add s l r).
Proof.
  intros L O. induction r as [|[k v] r IH]; cbn [add].
  - intros k v [E|[]]. injection E as <- <-. auto.
  - assert (O' : filled r) by (intros k' v' I; eapply O; now right; eauto). destruct (rank s <? rank k).
    { intros k' v' [E|I]; [injection E as <- <-; auto|eapply O; eauto]. }
    destruct (status_eqb s k) eqn:E.
    + intros k' v' [Q|I]; [|eapply O; now right; eauto]. injection Q as <- <-. intros Q. apply app_eq_nil in Q as [_ ->]. contradiction.
    + intros k' v' [Q|I]; [injection Q as <- <-; eapply O; now left; eauto|]. now apply IH in I.
Qed.
Lemma get_absent s (r : res) : ~ In s (keys r) -> get_or_nil s r = [].
Proof.
  induction r as [|[k v] r IH]; cbn [get_or_nil keys map fst In]; auto. intros H.
  destruct (status_eqb s k) eqn:E; [apply status_eqb_eq in E as ->; tauto|]. apply IH. tauto.
Qed.
Lemma put_add s l (r : res) : ascending r -> put s (get_or_nil s r ++ l) r = add s l r.
Proof.
  unfold ascending. induction r as [|[k v] r IH]; intros A; cbn [add put get_or_nil]; auto.
  cbn [keys map fst] in A. apply StronglySorted_inv in A as [A F]. destruct (rank s <? rank k) eqn:Q.
  - apply Nat.ltb_lt in Q. assert (E : status_eqb s k = false) by (apply status_eqb_neq; intros ->; lia). rewrite E.
    rewrite get_absent; auto. rewrite Forall_forall in F. intros I. specialize (F s I). lia.
  - destruct (status_eqb s k) eqn:E; auto. rewrite IH; auto.
Qed.
Lemma get_in s (r : res) : ascending r -> forall v, In (s, v) r -> get_or_nil s r = v.
Proof.
  unfold ascending. induction r as [|[k w] r IH]; intros A v I; [destruct I|]. cbn [get_or_nil]. cbn [keys map fst] in A. apply StronglySorted_inv in A as [A F].
  destruct I as [E|I].
  - injection E as -> ->. now rewrite status_eqb_refl.
  - destruct (status_eqb s k) eqn:E; auto. apply status_eqb_eq in E as ->. rewrite Forall_forall in F. specialize (F k). exfalso.
    assert (rank k < rank k) by (apply F; apply in_map_iff; exists (k, v); auto). lia.
Qed.
Lemma drop_reported s (r : res) : ascending r -> get_or_nil s r = [] -> reported (drop s r) = reported r.
Proof.
  intros A G. assert (H : forall v, In (s, v) r -> v = []) by (intros v I; rewrite <- (get_in s r A v I); auto). clear A G.
  induction r as [|[k v] r IH]; auto. unfold drop, reported in *. cbn [filter fst map snd concat]. destruct (status_eqb s k) eqn:E; cbn [negb].
  - apply status_eqb_eq in E as ->. rewrite (H v) by now left. apply IH. intros; apply H; now right.
  - cbn [map snd concat]. f_equal. apply IH. intros; apply H; now right.
Qed.
Lemma drop_facts s (r : res) : ascending r -> own_key r -> ascending (drop s r) /\ own_key (drop s r) /\ ~ In s (keys (drop s r)).
Proof.
  intros A O. splits.
  - unfold ascending in *. clear O. induction r as [|[k v] r IH]; auto. cbn [keys map fst] in A. apply StronglySorted_inv in A as [A F].
    unfold drop in *. cbn [filter fst]. destruct (negb (status_eqb s k)); auto. cbn [keys map fst]. constructor; auto.
    rewrite Forall_forall in *. intros y Y. apply F. apply in_map_iff in Y as ([k' v'] & <- & Y). apply filter_In in Y as [Y _]. apply in_map_iff. exists (k', v'). auto.
  - intros k v I. apply filter_In in I as [I _]. now apply O.
  - intros I. apply in_map_iff in I as ([k v] & <- & I). apply filter_In in I as [_ I]. cbn in I. now rewrite status_eqb_refl in I.
Qed.

Definition groups (sent : list (test * status)) : res := fold_left (fun r x => add (snd x) [x] r) sent [].
Lemma groups_snoc sent x : groups (sent ++ [x]) = add (snd x) [x] (groups sent).
Proof. unfold groups. now rewrite fold_left_app. Qed.
Lemma groups_facts sent : Permutation (reported (groups sent)) sent /\ ascending (groups sent) /\ own_key (groups sent) /\ filled (groups sent) /\
  (forall k, In k (keys (groups sent)) <-> In k (map snd sent)).
Proof.
  induction sent as [|x sent IH] using rev_ind.
  - splits; [reflexivity|constructor|intros k v []|intros k v []|cbn; tauto].
  - destruct IH as (I1 & I2 & I3 & I4 & I5). rewrite groups_snoc. splits.
    + rewrite add_reported, I1. cbn. apply Permutation_cons_append.
    + now apply add_ascending.
    + apply add_own; auto.
    + apply add_filled; auto. discriminate.
    + intros k. rewrite add_keys, I5, map_app, in_app_iff. cbn. intuition.
Qed.
(** The report of [collect_results], whatever was sent and left over. *)
Lemma collect_spec sent rest : ~ In Skipped (map snd sent) ->
  exists r, Permutation (reported r) (sent ++ map (fun t => (t, if selected t then Skipped else Excluded)) rest) /\
    ascending r /\ own_key r /\ filled r /\
    collect_results selected sent rest =
      if negb (existsb (fun x => negb (status_eqb (snd x) Excluded)) sent) && negb (existsb selected rest)
      then NoTestsSelected (length sent + length rest) else Reported r.
Proof.
  intros NS. unfold collect_results. fold (groups sent). destruct (groups_facts sent) as (G1 & G2 & G3 & G4 & G5).
  set (ex := filter (fun t => negb (selected t)) rest). set (sk := filter selected rest).
  pose proof (add_ascending Excluded [] _ G2) as A1. rewrite (put_add Excluded _ _ A1).
  set (r1 := add Excluded (map (fun t => (t, Excluded)) ex) (add Excluded [] (groups sent))).
  assert (R1 : Permutation (reported r1) (sent ++ map (fun t => (t, Excluded)) ex)).
  { unfold r1. rewrite !add_reported, G1. cbn. apply Permutation_app_comm. }
  assert (R2 : ascending r1) by now apply add_ascending.
  assert (R3 : own_key r1). { apply add_own; [apply add_own; auto|]. apply Forall_forall. intros x X. apply in_map_iff in X as (t & <- & _). reflexivity. }
  assert (R4 : forall k v, In (k, v) r1 -> k <> Excluded -> v <> []).
  { assert (GG : forall l (r : res), (forall k v, In (k, v) r -> k <> Excluded -> v <> []) -> forall k v, In (k, v) (add Excluded l r) -> k <> Excluded -> v <> []).
    { intros l r. induction r as [|[k0 v0] r IH]; intros H k v; cbn [add].
      - intros [E|[]] N. injection E as <- <-. contradiction.
      - assert (H' : forall k v, In (k, v) r -> k <> Excluded -> v <> []) by (intros k1 v1 I1 N1; eapply H; [right; exact I1|exact N1]).
        destruct (rank Excluded <? rank k0); [intros [E|I] N; [injection E as <- <-; contradiction|eapply H; eauto]|].
        destruct (status_eqb Excluded k0) eqn:E.
        + apply status_eqb_eq in E as <-. intros [E|I] N; [injection E as <- <-; contradiction|eapply H'; eauto].
        + intros [Q|I] N; [injection Q as <- <-; eapply H; [now left|]; auto|]. eapply IH; eauto. }
    unfold r1. apply GG, GG. intros k v I _. now apply (G4 k v). }
  assert (K1 : forall k, In k (keys r1) <-> k = Excluded \/ In k (map snd sent)).
  { intros k. unfold r1. rewrite !add_keys, G5. tauto. }
  set (r2 := match get_or_nil Excluded r1 with [] => drop Excluded r1 | _ => r1 end).
  assert (D : Permutation (reported r2) (reported r1) /\ ascending r2 /\ own_key r2 /\ filled r2 /\ ~ In Skipped (keys r2)).
  { assert (NK : ~ In Skipped (keys r1)) by (rewrite K1; intros [?|?]; [discriminate|contradiction]).
    destruct (drop_facts Excluded r1 R2 R3) as (D1 & D2 & D3). unfold r2. destruct (get_or_nil Excluded r1) as [|x l] eqn:G.
    - splits; auto.
      + rewrite drop_reported; auto.
      + intros k v I. apply filter_In in I as [I N]. cbn in N. apply (R4 k v I). intros ->. discriminate.
      + intros I. apply NK. apply in_map_iff in I as (kv & E & I). apply filter_In in I as [I _]. apply in_map_iff. eauto.
    - splits; auto. intros k v I. destruct (status_eqb k Excluded) eqn:E.
      + apply status_eqb_eq in E as ->. rewrite (get_in Excluded r1 R2 v I) in G. congruence.
      + apply status_eqb_neq in E. now apply (R4 k v I). }
  destruct D as (D1 & D2 & D3 & D4 & D5).
  set (r3 := match sk with [] => r2 | _ => put Skipped (map (fun t => (t, Skipped)) sk) r2 end).
  assert (E3 : r3 = match sk with [] => r2 | _ => add Skipped (map (fun t => (t, Skipped)) sk) r2 end).
  { unfold r3. destruct sk as [|t0 sk']; auto. rewrite <- put_add by auto. rewrite (get_absent Skipped r2 D5). reflexivity. }
  assert (P3 : Permutation (reported r3) (sent ++ map (fun t => (t, if selected t then Skipped else Excluded)) rest)).
  { assert (S0 : Permutation (map (fun t => (t, if selected t then Skipped else Excluded)) rest) (map (fun t => (t, Skipped)) sk ++ map (fun t => (t, Excluded)) ex)).
    { unfold sk, ex. clear. induction rest as [|t rest IH]; cbn; auto. destruct (selected t); cbn.
      - now constructor.
      - rewrite IH. apply Permutation_middle. }
    rewrite S0. rewrite E3. destruct sk as [|t0 sk'] eqn:SK.
    - rewrite D1, R1. reflexivity.
    - rewrite add_reported, D1, R1, !app_assoc. apply Permutation_app_tail, Permutation_app_comm. }
  exists r3. splits; auto.
  - rewrite E3. destruct sk; auto. now apply add_ascending.
  - rewrite E3. destruct sk as [|t0 sk']; auto. apply add_own; auto. apply Forall_forall. intros x X. apply in_map_iff in X as (t & <- & _). reflexivity.
  - rewrite E3. destruct sk as [|t0 sk']; auto. apply add_filled; auto. discriminate.
  - assert (ES : match sk with [] => true | _ => false end = negb (existsb selected rest)).
    { unfold sk. clear. induction rest as [|t rest IH]; auto. cbn. destruct (selected t); auto. }
    rewrite ES. destruct (_ && _); auto. f_equal.
    assert (LEN : forall r : res, fold_right (fun kv n => length (snd kv) + n) 0 r = length (reported r)).
    { induction r as [|kv r IH]; auto. cbn. unfold reported in *. cbn. now rewrite app_length, IH. }
    rewrite LEN. apply Permutation_length in P3. rewrite P3, app_length, map_length. reflexivity.
Qed.

(** ** The theorems *)
Hypothesis never_skipped : forall t, exec t <> Some Skipped.
Hypothesis never_excluded : forall t, exec t <> Some Excluded.
(** The status a test has by itself. *)
Definition own_status (t : test) (s : status) : Prop := if selected t then exec t = Some s else s = Excluded.

Lemma sent_no_skipped p : Forall (rightly p) (po_sent p) -> ~ In Skipped (map snd (po_sent p)).
Proof.
  intros F I. apply in_map_iff in I as ([t s] & E & I). rewrite Forall_forall in F. specialize (F _ I). cbn in E; subst.
  destruct F as [[_ F]|[_ F]]; cbn in F; [discriminate|]. now apply never_skipped in F.
Qed.
Lemma none_selected n tests p : completed selected exec n tests p -> 0 < n -> po_errors p = [] ->
  (negb (existsb (fun x => negb (status_eqb (snd x) Excluded)) (po_sent p)) && negb (existsb selected (po_queue p)) = true <->
   Forall (fun t => selected t = false) tests).
Proof.
  intros C N NE. destruct (completed_good n tests p C N) as (P & R & E & Q). specialize (Q NE). rewrite NE, Q, app_nil_r in *. cbn [app existsb] in *.
  rewrite andb_true_r, negb_true_iff. rewrite Forall_forall in R. split.
  - intros H1. apply Forall_forall. intros t I. apply (Permutation_in _ P) in I.
    apply in_map_iff in I as ([t' s] & <- & I). destruct (R _ I) as [[A B]|[A B]]; auto. cbn in *. exfalso.
    assert (existsb (fun x => negb (status_eqb (snd x) Excluded)) (po_sent p) = true); [|congruence].
    apply existsb_exists. exists (t', s). split; auto. cbn. apply negb_true_iff, status_eqb_neq. intros ->. now apply never_excluded in B.
  - intros F. rewrite Forall_forall in F. apply not_true_iff_false; intros H; apply existsb_exists in H as (x & I & H).
    apply negb_true_iff, status_eqb_neq in H. destruct (R _ I) as [[A B]|[A B]]; [contradiction|].
    assert (IT : In (fst x) tests) by (apply Permutation_sym in P; eapply Permutation_in; [exact P|now apply in_map]).
    rewrite (F _ IT) in A. discriminate.
Qed.

(** C30: however the workers interleave, once all have finished: the groups are in order of their
    statuses, each status once, none empty, each test under its own status; together with the tests
    whose execution raised an error they are exactly the given tests, each once; tests that were never
    started (only after such an error) are listed as skipped. *)
Theorem C30_reported_once n tests p : 0 < n -> completed selected exec n tests p ->
  match fst (conclude selected p) with
  | Reported r =>
      StronglySorted (fun a b => rank a < rank b) (map fst r) /\
      (forall k l, In (k, l) r -> l <> [] /\ Forall (fun x => snd x = k) l) /\
      Permutation (map fst (reported r) ++ po_errors p) tests /\
      Forall (fun x => own_status (fst x) (snd x) \/ (selected (fst x) = true /\ snd x = Skipped /\ po_errors p <> [])) (reported r)
  | NoTestsSelected k => k + length (po_errors p) = length tests
  end.
Proof.
  intros N C. destruct (completed_good n tests p C N) as (P & R & E & Q).
  destruct (collect_spec (po_sent p) (po_queue p) (sent_no_skipped p R)) as (r & P3 & A & O & F & CR).
  unfold conclude. rewrite CR. destruct (_ && _); cbn [fst].
  - apply Permutation_length in P. rewrite P, !app_length, map_length. lia.
  - splits; auto.
    + intros k l I. split; [now apply (F k l)|now apply O].
    + rewrite (Permutation_map fst P3), map_app, map_map. cbn [fst]. rewrite map_id, P, <- app_assoc.
      rewrite (Permutation_app_comm (map fst (po_sent p))), <- app_assoc. apply Permutation_app_head, Permutation_app_comm.
    + apply Forall_forall. intros [t s] I. apply (Permutation_in _ P3), in_app_iff in I as [I|I]; cbn.
      * left. rewrite Forall_forall in R. unfold own_status. destruct (R _ I) as [[A1 A2]|[A1 A2]]; cbn in *; rewrite A1; auto.
      * apply in_map_iff in I as (t' & E' & I). injection E' as <- <-. unfold own_status. destruct (selected t') eqn:S; [|auto].
        right. splits; auto. intros Z. rewrite (Q Z) in I. destruct I.
Qed.
(** C30, when no execution raises an error: the report is the given tests with their own statuses. *)
Theorem C30_all_reported n tests p : 0 < n -> completed selected exec n tests p ->
  (forall t, In t tests -> selected t = true -> exec t <> None) ->
  (Forall (fun t => selected t = false) tests /\ conclude selected p = (NoTestsSelected (length tests), Error)) \/
  (~ Forall (fun t => selected t = false) tests /\ exists r, fst (conclude selected p) = Reported r /\
     Permutation (reported r) (map (fun t => (t, if selected t then match exec t with Some s => s | None => Unresolved end else Excluded)) tests)).
Proof.
  intros N C H. destruct (completed_good n tests p C N) as (P & R & E & Q).
  assert (NE : po_errors p = []).
  { destruct (po_errors p) as [|t er] eqn:Z; auto. exfalso. inversion E as [|? ? [E1 E2] ?]; subst. apply (H t); auto.
    apply Permutation_sym in P. eapply Permutation_in; [exact P|]. rewrite !in_app_iff. cbn. auto. }
  destruct (collect_spec (po_sent p) (po_queue p) (sent_no_skipped p R)) as (r & P3 & A & O & F & CR).
  pose proof (none_selected n tests p C N NE) as NS. unfold conclude. rewrite CR. destruct (_ && _) eqn:B.
  - left. split; [now apply NS|]. f_equal. apply Permutation_length in P. rewrite P, NE, !app_length, map_length. cbn. f_equal. lia.
  - right. split; [intros Z; apply NS in Z; discriminate|]. exists r. split; auto. rewrite P3, (Q NE). cbn. rewrite app_nil_r, P, (Q NE), NE, app_nil_r. cbn.
    rewrite map_map. rewrite <- (map_id (po_sent p)) at 1. erewrite map_ext_in; [reflexivity|]. intros [t s] I.
    rewrite Forall_forall in R. destruct (R _ I) as [[A1 A2]|[A1 A2]]; cbn in *; rewrite A1; [congruence|now rewrite A2].
Qed.
(** C29: the exit status, whatever the schedule: success iff some test is selected and every selected
    one runs without an internal error to a status that is not a failure. *)
Theorem C29_exit n tests p : 0 < n -> completed selected exec n tests p ->
  (snd (conclude selected p) = Success <->
   (exists t, In t tests /\ selected t = true) /\
   forall t, In t tests -> selected t = true -> exists s, exec t = Some s /\ ~ In s [Unresolved; Timeout; Fail; Xpass]).
Proof.
  intros N C. destruct (completed_good n tests p C N) as (P & R & E & Q).
  destruct (collect_spec (po_sent p) (po_queue p) (sent_no_skipped p R)) as (r & P3 & A & O & F & CR).
  assert (KEYS : existsb (fun kv => is_failure (fst kv)) r = true <-> exists x, In x (po_sent p) /\ is_failure (snd x) = true).
  { rewrite existsb_exists. split.
    - intros ([k l] & I & H). cbn in H. specialize (F k l I). specialize (O k l I). destruct l as [|x l]; [contradiction|]. inversion O; subst.
      assert (I' : In x (reported r)) by (unfold reported; apply in_concat; exists (x :: l); split; [apply in_map_iff; exists (snd x, x :: l); auto|now left]).
      apply (Permutation_in _ P3), in_app_iff in I' as [I'|I']; eauto.
      apply in_map_iff in I' as (t & <- & _). cbn in H. destruct (selected t); discriminate.
    - intros (x & I & H). assert (I' : In x (reported r)) by (apply Permutation_sym in P3; eapply Permutation_in; [exact P3|apply in_app_iff; auto]).
      unfold reported in I'. apply in_concat in I' as (l & IL & IX). apply in_map_iff in IL as ([k l'] & EL & IL). cbn in EL; subst l'.
      exists (k, l). split; auto. cbn. specialize (O k l IL). rewrite Forall_forall in O. rewrite <- (O x IX). auto. }
  assert (FAIL : forall s, is_failure s = true <-> In s [Unresolved; Timeout; Fail; Xpass]) by (intros []; cbn; intuition discriminate).
  unfold conclude. rewrite CR. destruct (po_errors p) as [|te er] eqn:NE.
  - pose proof (none_selected n tests p C N NE) as NS. rewrite (Q eq_refl) in *. rewrite app_nil_r in P. cbn [app] in P.
    assert (SENT : forall t, In t tests -> selected t = true -> exists s, exec t = Some s /\ In (t, s) (po_sent p)).
    { intros t I S. apply (Permutation_in _ P) in I. apply in_map_iff in I as ([t' s] & <- & I). rewrite Forall_forall in R. cbn in S.
      destruct (R _ I) as [[A1 A2]|[A1 A2]]; cbn in *; [congruence|]. eauto. }
    destruct (_ && _) eqn:B; cbn [snd].
    + split; [discriminate|]. intros [(t & I & S) _]. apply proj1 in NS. specialize (NS eq_refl). rewrite Forall_forall in NS. rewrite (NS t I) in S. discriminate.
    + rewrite orb_false_r. split.
      * intros H. destruct (existsb (fun kv => is_failure (fst kv)) r) eqn:X; [discriminate|]. split.
        -- destruct (existsb selected tests) eqn:Z; [apply existsb_exists in Z as (t & I & S); eauto|]. exfalso.
           assert (false = true); [|discriminate]. apply NS. apply Forall_forall. intros t I. destruct (selected t) eqn:S; auto.
           assert (existsb selected tests = true) by (apply existsb_exists; eauto). congruence.
        -- intros t I S. destruct (SENT t I S) as (s & ES & IS). exists s. split; auto. intros Z. apply FAIL in Z.
           assert (false = true); [|discriminate]. apply KEYS. exists (t, s). auto.
      * intros [_ H]. destruct (existsb (fun kv => is_failure (fst kv)) r) eqn:X; auto. exfalso.
        destruct (proj1 KEYS eq_refl) as ([t s] & I & Z). cbn in Z. rewrite Forall_forall in R. destruct (R _ I) as [[A1 A2]|[A1 A2]]; cbn in *; [subst; discriminate|].
        destruct (H t) as (s' & E' & NF); auto.
        { apply Permutation_sym in P. eapply Permutation_in; [exact P|]. apply in_map_iff. exists (t, s). auto. }
        rewrite A2 in E'. injection E' as <-. apply NF. now apply FAIL.
  - split.
    + destruct (_ && _); cbn [snd]; [discriminate|]. rewrite orb_true_r. discriminate.
    + intros [_ H]. exfalso. inversion E as [|? ? [E1 E2] ?]; subst. destruct (H te) as (s & E' & _); auto; [|congruence].
      apply Permutation_sym in P. eapply Permutation_in; [exact P|]. rewrite !in_app_iff. cbn. auto.
Qed.
(** Every run ends: no schedule goes on forever, and a pool that has not finished can take a step. *)
Definition weight (w : worker test) : nat := match w with Idle => 1 | Running _ => 2 | Done => 0 end.
Definition measure (p : pool test) : nat := 3 * length (po_queue p) + list_sum (map weight (po_workers p)).
Lemma step_measure p q : step p q -> measure q < measure p.
Proof. intros S. destruct S; unfold measure; cbn [po_queue po_workers length]; rewrite !map_app, !list_sum_app; cbn [map weight list_sum fold_right]; lia. Qed.
Theorem C30_terminates n tests : (forall p, steps (start_pool n tests) p -> finished p \/ exists q, step p q) /\ well_founded (fun b a => step a b).
Proof.
  split.
  - intros p _. destruct p as [q ws se er st]. unfold finished. cbn [po_workers].
    assert (D : Forall (fun w : worker test => w = Done) ws \/ exists ws1 w ws2, ws = ws1 ++ w :: ws2 /\ w <> Done).
    { induction ws as [|w ws IH]; auto. destruct w.
      - right. exists [], Idle, ws. split; auto. discriminate.
      - right. exists [], (Running t), ws. split; auto. discriminate.
      - destruct IH as [IH|(ws1 & w & ws2 & -> & H)]; auto. right. exists (Done :: ws1), w, ws2. auto. }
    destruct D as [D|(ws1 & w & ws2 & -> & H)]; auto. right. destruct w; [| |congruence].
    + destruct q as [|t q]; eexists; [apply S_empty|apply S_take].
    + destruct (selected t) eqn:S; [destruct (exec t) eqn:X|]; eexists; [eapply S_run|eapply S_error|eapply S_exclude]; eauto.
  - apply (well_founded_lt_compat _ measure). intros. now apply step_measure.
Qed.
End R.
(** * C61 *)
(** [--filter f --filter-out g] wants this name: the first, if given, matches it, the second, if given, does not. *)
Definition wanted (f g : option (str -> bool)) (name : str) : Prop :=
  (forall p, f = Some p -> p name = true) /\ (forall p, g = Some p -> p name = false).
Lemma is_selected_spec f g name : is_selected f g name = true <-> wanted f g name.
Proof.
  unfold is_selected, wanted. rewrite andb_true_iff, negb_true_iff. split.
  - intros [A B]. split; intros p ->; auto.
  - intros [A B]. split; [destruct f|destruct g]; auto.
Qed.
(** C61: once every worker has finished, a test is reported as excluded iff the filters do not want it
    (running a test never gives that status, C30_own_statuses); and if they want none, that is what lit says. *)
Theorem C61_filters {test} (name : test -> str) exec f g n tests p :
  (forall t, exec t <> Some Skipped) -> (forall t, exec t <> Some Excluded) ->
  0 < n -> completed (fun t => is_selected f g (name t)) exec n tests p ->
  (forall t, In t tests -> wanted f g (name t) -> exec t <> None) ->
  match fst (conclude (fun t => is_selected f g (name t)) p) with
  | Reported r => (exists t, In t tests /\ wanted f g (name t)) /\
      forall t s, In (t, s) (reported r) -> In t tests /\ (wanted f g (name t) -> exec t = Some s) /\ (s = Excluded <-> ~ wanted f g (name t))
  | NoTestsSelected k => k = length tests /\ forall t, In t tests -> ~ wanted f g (name t)
  end.
Proof.
  intros NSk NEx N C H. destruct (C30_all_reported _ _ NSk NEx n tests p N C) as [[A ->]|(A & r & -> & P)].
  - intros t I W. apply is_selected_spec, (H t I) in W. exact W.
  - cbn [fst]. split; auto. intros t I W. apply is_selected_spec in W. rewrite Forall_forall in A. specialize (A t I). cbn in A. congruence.
  - split.
    + assert (E : Exists (fun t => is_selected f g (name t) <> false) tests) by (apply neg_Forall_Exists_neg; auto; intros x; apply bool_dec).
      apply Exists_exists in E as (t & I & E). exists t. split; auto. apply is_selected_spec. now apply not_false_is_true.
    + intros t s I. apply (Permutation_in _ P), in_map_iff in I as (t' & E & I). injection E as -> E. split; auto.
      destruct (is_selected f g (name t)) eqn:S.
      * apply is_selected_spec in S. specialize (H t I S). pose proof (NEx t) as NE. destruct (exec t) as [s'|] eqn:X; [|congruence]. split; [congruence|]. split; [congruence|contradiction].
      * split; [intros W; apply is_selected_spec in W; congruence|]. split; [|congruence]. intros _ W. apply is_selected_spec in W. congruence.
Qed.
Example C61_ex : wanted (Some (fun s => 1 <? List.length s)) (Some (fun s => 3 <? List.length s)) [97; 98]%N /\
  ~ wanted (Some (fun s => 1 <? List.length s)) (Some (fun s => 3 <? List.length s)) [97]%N /\
  ~ wanted (Some (fun s => 1 <? List.length s)) (Some (fun s => 3 <? List.length s)) [97; 98; 99; 100]%N.
Proof. rewrite <- !is_selected_spec. cbn. repeat split; discriminate. Qed.
(** Two workers, three tests, one excluded: a run. *)
Example C30_ex : exists p, completed (fun t => negb (t =? 2)) (fun t => Some (if t =? 1 then Fail else Pass)) 2 [1; 2; 3] p /\
  conclude (fun t => negb (t =? 2)) p = (Reported [(Excluded, [(2, Excluded)]); (Pass, [(3, Pass)]); (Fail, [(1, Fail)])], Failure).
Proof.
  eexists. split; [split|].
  - unfold start_pool. cbn [repeat].
    eapply steps_more; [eapply steps_more; [eapply steps_more; [eapply steps_more; [eapply steps_more; [eapply steps_more; [eapply steps_more; [eapply steps_more; [apply steps_refl|]|]|]|]|]|]|]|].
    + apply (S_take _ _ [2; 3] 1 [] [Idle]).
    + apply (S_take _ _ [3] 2 [Running 1] []).
    + apply (S_exclude _ _ [3] [Running 1] [] 2). reflexivity.
    + apply (S_take _ _ [] 3 [Running 1] []).
    + apply (S_run _ _ [] [Running 1] [] 3 Pass); reflexivity.
    + apply (S_empty _ _ [Running 1] []).
    + apply (S_run _ _ [] [] [Done] 1 Fail); reflexivity.
    + apply (S_empty _ _ [] [Done]).
  - unfold finished. cbn. repeat constructor.
  - reflexivity.
Qed.

(** * C52 *)
(** not: success iff the command could be run and ended the way it was asked to. *)
Theorem C52_not expect_crash r : not_run expect_crash r = 0%Z <->
  if expect_crash then r = Crashed else exists c, r = Exited c /\ c <> 0%Z.
Proof.
  destruct expect_crash, r; cbn; try (split; intros; discriminate); try tauto.
  - split; [discriminate|]. intros (c & E & _). discriminate.
  - split; [discriminate|]. intros (c & E & _). discriminate.
  - split; [discriminate|]. intros (c & E & _). discriminate.
  - split; [discriminate|]. intros (c & E & _). discriminate.
  - destruct (code =? 0)%Z eqn:Q.
    + apply Z.eqb_eq in Q. subst. split; [discriminate|]. intros (c & E & H). injection E as <-. contradiction.
    + apply Z.eqb_neq in Q. split; eauto.
Qed.
Theorem C52_codes : not_run false NotFound = 127%Z /\ not_run true NotFound = 127%Z /\ (forall b, not_run b NotRunnable = 126%Z) /\ (forall b, not_run b NoCommand = 126%Z) /\
  forall b r, (r = Crashed \/ exists c, r = Exited c) -> not_run b r = 0%Z \/ not_run b r = 1%Z.
Proof.
  splits; auto. intros [] r [->|(c & ->)]; cbn; auto. destruct (c =? 0)%Z; auto.
Qed.

(** * C43 *)
Section C43.
Context {world : Type}.
Variable sem : str -> world -> world * bool.
Variable quote : str -> str.
Variable show_line : nat -> str.
Lemma run_one x st : run_sh sem (run_shell quote show_line x) st = (fst (sem (snd x) st), snd (sem (snd x) st), [snd x]).
Proof. cbn. destruct (sem (snd x) st). reflexivity. Qed.
Lemma chain_false l : forall first st st1 tr, run_sh sem first st = (st1, false, tr) -> run_sh sem (chain first l) st = (st1, false, tr).
Proof. induction l as [|x l IH]; intros first st st1 tr E; cbn [chain]; auto. apply IH. cbn. now rewrite E. Qed.
Lemma chain_run l : forall first st st1 tr st2 ok tr2, run_sh sem first st = (st1, true, tr) -> until_failure sem (map snd l) st1 st2 ok tr2 ->
  run_sh sem (chain first (map (run_shell quote show_line) l)) st = (st2, ok, tr ++ tr2).
Proof.
  induction l as [|x l IH]; intros first st st1 tr st2 ok tr2 E U; cbn [map chain] in *.
  - inversion U; subst. rewrite E, app_nil_r. reflexivity.
  - inversion U as [|? ? ? ? F|? ? ? sta ? ? tra F U']; subst.
    + apply chain_false. cbn [run_sh]. rewrite E, run_one, F. reflexivity.
    + erewrite IH; [| |exact U']; [|cbn [run_sh]; rewrite E, run_one, F; reflexivity]. cbn [fst snd]. now rewrite <- app_assoc.
Qed.
Lemma until_total l : forall st, exists st' ok tr, until_failure sem l st st' ok tr.
Proof.
  induction l as [|c l IH]; intros st; [eexists _, _, _; constructor|]. destruct (sem c st) as [st1 []] eqn:E.
  - destruct (IH st1) as (st2 & ok & tr & U). eexists _, _, _. eapply U_ok; eauto.
  - eexists _, _, _. eapply U_fail; eauto.
Qed.
(** C43: the script does what running its commands in order until one fails does, and its exit status
    is the success of all of them. *)
Theorem C43_script pipefail cmds st : exists st' ok tr, until_failure sem (map snd cmds) st st' ok tr /\
  run_statements sem (script_statements quote show_line pipefail cmds) true st = (st', ok, tr).
Proof.
  destruct (until_total (map snd cmds) st) as (st' & ok & tr & U). exists st', ok, tr. split; auto.
  assert (H : run_statements sem (Builtin (of_string "set -x") :: match map (run_shell quote show_line) cmds with [] => [] | x :: r => [chain x r] end) true st = (st', ok, tr)).
  { cbn [run_statements run_sh]. destruct cmds as [|x cmds]; cbn [map] in *.
    - inversion U; subst. reflexivity.
    - cbn [run_statements]. assert (R : run_sh sem (chain (run_shell quote show_line x) (map (run_shell quote show_line) cmds)) st = (st', ok, tr)).
      { inversion U as [|? ? ? ? F|? ? ? sta ? ? tra F U']; subst.
        - apply chain_false. now rewrite run_one, F.
        - erewrite chain_run; [| |exact U']; [|rewrite run_one, F; reflexivity]. reflexivity. }
      rewrite R. cbn. now rewrite app_nil_r. }
  unfold script_statements. destruct pipefail; cbn [app]; auto. cbn [run_statements run_sh] in *. rewrite H. reflexivity.
Qed.
Theorem C43_exit pipefail cmds st : snd (fst (run_statements sem (script_statements quote show_line pipefail cmds) true st)) = true <->
  until_failure sem (map snd cmds) st (fst (fst (run_statements sem (script_statements quote show_line pipefail cmds) true st))) true (map snd cmds).
Proof.
  destruct (C43_script pipefail cmds st) as (st' & ok & tr & U & ->). cbn [fst snd]. split; [intros ->|].
  - assert (T : tr = map snd cmds); [|now rewrite <- T at 2].
    revert U. generalize (map snd cmds). intros l U. remember true as ok eqn:O. clear -U O. induction U; auto; [discriminate|]. f_equal. auto.
  - intros V. revert ok tr st' U V. generalize (map snd cmds). intros l ok tr st' U. induction U as [|? ? ? ? F|? ? ? ? ? ? ? F U IH]; intros V; auto.
    + exfalso. inversion V; subst; congruence.
    + inversion V as [|? ? ? ? F'|? ? ? sta ? ? tra F' U']; subst; rewrite F in F'. injection F' as <-. auto.
Qed.
End C43.
(** The text that is written is what the shell reads as these statements. *)
Lemma reads_one quote show_line x : reads (run_shell quote show_line x) (run_text quote show_line x).
Proof.
  unfold run_shell, run_text.
  set (B1 := of_string "{ set +x; } 2>/dev/null"). set (B3 := of_string "{ set -x; } 2>/dev/null").
  set (B2 := of_string "echo 'RUN at line " ++ show_line (fst x) ++ of_string "': " ++ quote (snd x) ++ of_string " >&2").
  assert (IN : reads (Group (User (snd x))) (of_string "{" ++ nl ++ snd x ++ nl ++ of_string "}")) by (apply R_group; [constructor|now left|now left]).
  pose proof (R_group _ _ (nl ++ of_string "  ") (of_string ";" ++ nl)
    (R_and _ _ _ _ (R_builtin B1) (R_and _ _ _ _ (R_builtin B2) (R_and _ _ _ _ (R_builtin B3) IN))) ltac:(right; now left) ltac:(right; now left)) as H.
  match goal with |- reads _ ?b => match type of H with reads _ ?a => replace b with a; [exact H|] end end.
  unfold B1, B2, B3. cbn [of_string app]. rewrite <- !app_assoc. cbn [of_string app]. rewrite <- ?app_assoc. reflexivity.
Qed.
Lemma reads_chain l quote show_line : forall first t, reads first t ->
  reads (chain first (map (run_shell quote show_line) l)) (fold_left (fun acc x => acc ++ of_string " && " ++ run_text quote show_line x) l t).
Proof.
  induction l as [|x l IH]; intros first t R; cbn [map chain fold_left]; auto. apply IH. constructor; auto using reads_one.
Qed.
Theorem C43_text quote show_line pipefail cmds : reads_all (script_statements quote show_line pipefail cmds) (write_script quote show_line pipefail cmds).
Proof.
  assert (J : forall l x, join (of_string " && ") (map (run_text quote show_line) (x :: l)) = fold_left (fun acc x => acc ++ of_string " && " ++ run_text quote show_line x) l (run_text quote show_line x)).
  { intros l x. cbn [map join]. assert (G : forall l t, fold_left (fun acc x => acc ++ of_string " && " ++ run_text quote show_line x) l t =
      match l with [] => t | _ => t ++ of_string " && " ++ join (of_string " && ") (map (run_text quote show_line) l) end).
    { induction l0 as [|y l0 IH]; intros t; auto. cbn [fold_left]. rewrite IH. destruct l0; cbn [map join]; [reflexivity|]. now rewrite <- !app_assoc. }
    rewrite G. destruct l; reflexivity. }
  assert (T : reads_all (Builtin (of_string "set -x") :: match map (run_shell quote show_line) cmds with [] => [] | x :: r => [chain x r] end)
     (of_string "set -x;" ++ nl ++ join (of_string " && ") (map (run_text quote show_line) cmds) ++ nl)).
  { change (of_string "set -x;" ++ nl ++ join (of_string " && ") (map (run_text quote show_line) cmds) ++ nl) with
      (of_string "set -x" ++ of_string ";" ++ nl ++ (join (of_string " && ") (map (run_text quote show_line) cmds) ++ nl)).
    apply R_next; [constructor|]. destruct cmds as [|x cmds]; [constructor|]. rewrite J. cbn [map]. constructor.
    apply reads_chain, reads_one. }
  unfold script_statements, write_script. destruct pipefail; cbn [app]; auto.
  change (reads_all (Builtin (of_string "set -o pipefail") :: Builtin (of_string "set -x") :: match map (run_shell quote show_line) cmds with [] => [] | x :: r => [chain x r] end)
    (of_string "set -o pipefail" ++ of_string ";" ++ nl ++ of_string "set -x;" ++ nl ++ join (of_string " && ") (map (run_text quote show_line) cmds) ++ nl)).
  apply R_next; auto. constructor.
Qed.
Example C43_ex : run_statements (fun c w => (w ++ c, negb (str_eqb c (of_string "b")))) (script_statements (fun c => c) (fun _ => []) true [(1, of_string "a"); (2, of_string "b"); (3, of_string "c")]) true [] =
  (of_string "ab", false, [of_string "a"; of_string "b"]).
Proof. reflexivity. Qed.
Print Assumptions C27_table.
Print Assumptions C28_retries.
Print Assumptions C29_exit.
Print Assumptions C30_reported_once.
Print Assumptions C30_all_reported.
Print Assumptions C30_terminates.
Print Assumptions C61_filters.
Print Assumptions C43_script.
Print Assumptions C43_text.
