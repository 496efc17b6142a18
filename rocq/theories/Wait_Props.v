(** C44, C53: time limits. *)
From Verif Require Import Base Text_Model Cursor_Model Run_Model Wait_Model.
Ltac splits := repeat match goal with |- _ /\ _ => split end.

(** Looks follow each other, and never stop coming. *)
Definition orderly (l : looks) : Prop := (forall i, fst (l i) <= snd (l i) <= fst (l (S i))) /\ forall t, exists i, t <= fst (l i).
Lemma orderly_le l : orderly l -> forall j i, i < j -> snd (l i) <= fst (l j).
Proof.
  intros [O _]. induction j as [|j IH]; intros i L; [lia|]. destruct (Nat.eq_dec i j) as [->|].
  - apply O.
  - specialize (IH i ltac:(lia)). destruct (O j). lia.
Qed.
Lemma exited_mono c t t' : t <= t' -> exited_by c t' = None -> exited_by c t = None.
Proof.
  unfold exited_by. destruct (ch_exits c) as [[e code]|]; auto. intros L. destruct (e <=? t') eqn:A; [discriminate|]. intros _.
  apply Nat.leb_gt in A. destruct (e <=? t) eqn:B; auto. apply Nat.leb_le in B. lia.
Qed.
Definition waits_on c timeout (l : looks) k : Prop := exited_by c (fst (l k)) = None /\ (timeout = 0 \/ snd (l k) < timeout).
Lemma loop_inv c timeout l i r : loop c timeout l i r ->
  exists j, i <= j /\ (forall k, i <= k < j -> waits_on c timeout l k) /\
    ((exists code e, exited_by c (fst (l j)) = Some code /\ ch_closes c = Some e /\ r = Ends (of_exit code) (Nat.max (snd (l j)) e) false) \/
     (exists e, exited_by c (fst (l j)) = None /\ timeout <> 0 /\ timeout <= snd (l j) /\ ch_closes c = Some e /\ r = Ends Timeout (Nat.max (snd (l j)) e) true)).
Proof.
  induction 1 as [i code e X C|i r X T L (j & J & W & D)|i e X T1 T2 C].
  - exists i. splits; auto; [intros; lia|]. left. eauto 10.
  - exists j. splits; [lia| |exact D]. intros k K. destruct (Nat.eq_dec k i) as [->|]; [split; auto|]. apply W. lia.
  - exists i. splits; auto; [intros; lia|]. right. eauto 10.
Qed.
Lemma loop_intro c timeout l r : forall n i, loop c timeout l (i + n) r -> (forall k, i <= k < i + n -> waits_on c timeout l k) -> loop c timeout l i r.
Proof.
  induction n as [|n IH]; intros i L W; [now rewrite Nat.add_0_r in L|]. destruct (W i ltac:(lia)) as [W1 W2]. apply L_again; auto. apply IH.
  - now replace (S i + n) with (i + S n) by lia.
  - intros k K. apply W. lia.
Qed.

(** The status of a test whose process ended with this exit code; no code: ended by a signal. *)
Inductive exit_means : option Z -> status -> Prop :=
| em_zero : exit_means (Some 0%Z) Pass
| em_other z : z <> 0%Z -> exit_means (Some z) Fail
| em_signal : exit_means None Unresolved.
Lemma exit_means_of code : exit_means code (of_exit code).
Proof. destruct code as [[|p|p]|]; constructor; discriminate. Qed.
Lemma exit_means_fun code r : exit_means code r -> r = of_exit code.
Proof. destruct 1 as [|[]|]; try reflexivity. congruence. Qed.
(** C44: what is reported as the child's own status is its exit status, and it had exited. *)
Theorem C44_own_status c timeout l r at_ : orderly l -> sh_wait (Spawned c) timeout l (Ends r at_ false) ->
  exists e code, ch_exits c = Some (e, code) /\ exit_means code r /\ e <= at_.
Proof.
  intros O W. inversion W as [|? ? P|c0 t ? E _ T L0 L]; try discriminate. injection E as <-.
  destruct (loop_inv _ _ _ _ _ L) as (j & _ & _ & [(code & e & X & C & R)|(e & _ & _ & _ & _ & R)]); [|discriminate].
  injection R as -> ->. unfold exited_by in X. destruct (ch_exits c) as [[e0 code0]|]; [|discriminate]. destruct (e0 <=? fst (l j)) eqn:Z; [|discriminate].
  injection X as ->. apply Nat.leb_le in Z. exists e0, code. splits; auto; [apply exit_means_of|]. destruct O as [O _]. destruct (O j). lia.
Qed.
(** C44: TIMEOUT is reported only with a limit set, after it has passed, and for a child that was still
    running when last looked at. *)
Theorem C44_timeout_late c timeout l r at_ : sh_wait (Spawned c) timeout l (Ends r at_ true) ->
  r = Timeout /\ timeout <> 0 /\ timeout <= at_ /\ exists i, exited_by c (fst (l i)) = None /\ timeout <= snd (l i) <= at_.
Proof.
  intros W. inversion W as [|? ? P|c0 t ? E _ T L0 L]; try discriminate. injection E as <-.
  destruct (loop_inv _ _ _ _ _ L) as (j & _ & _ & [(code & e & X & C & R)|(e & X & T1 & T2 & C & R)]); [discriminate|].
  injection R as -> ->. splits; auto; try lia. exists j. split; auto. lia.
Qed.
(** C44: a child that has exited by some look, the clock having been below the limit at every look
    before it, is reported by its exit status. *)
Theorem C44_in_time_partial c timeout l e code t z i : ch_exits c = Some (e, code) -> ch_takes c = Some t -> ch_closes c = Some z -> t <= fst (l 0) ->
  e <= fst (l i) -> (forall k, k < i -> timeout = 0 \/ snd (l k) < timeout) ->
  exists r at_, exit_means code r /\ sh_wait (Spawned c) timeout l (Ends r at_ false).
Proof.
  intros X T C T0 E W.
  assert (M : exists j, j <= i /\ e <= fst (l j) /\ forall k, k < j -> exited_by c (fst (l k)) = None).
  { clear W. induction i as [i IH] using lt_wf_ind.
    assert (D : (forall k, k < i -> exited_by c (fst (l k)) = None) \/ exists k, k < i /\ e <= fst (l k)).
    { clear IH E. induction i as [|i [IH|(k & K & H)]]; [left; intros; lia| |right; exists k; split; auto; lia].
      unfold exited_by in *. rewrite X in *. destruct (e <=? fst (l i)) eqn:Z.
      - right. exists i. apply Nat.leb_le in Z. split; auto.
      - left. intros k K. destruct (Nat.eq_dec k i) as [->|]; [now rewrite Z|]. apply IH. lia. }
    destruct D as [D|(k & K & H)]; [exists i; auto|]. destruct (IH k K H) as (j & J & H1 & H2). exists j. splits; auto; lia. }
  destruct M as (j & J & EJ & N). exists (of_exit code). eexists. split; [apply exit_means_of|]. eapply W_loop; eauto. apply (loop_intro c timeout l _ j 0).
  - cbn. eapply L_exit; eauto. unfold exited_by. rewrite X. apply Nat.leb_le in EJ. now rewrite EJ.
  - cbn. intros k K. split; [apply N; lia|]. apply W. lia.
Qed.
(** C44: a child that never exits but closes its outputs is reported as timed out. *)
Theorem C44_times_out_partial c timeout l t z : orderly l -> ch_exits c = None -> ch_takes c = Some t -> ch_closes c = Some z -> t <= fst (l 0) -> timeout <> 0 ->
  exists at_, sh_wait (Spawned c) timeout l (Ends Timeout at_ true).
Proof.
  intros O X T C T0 NZ. assert (M : exists j, timeout <= snd (l j) /\ forall k, k < j -> snd (l k) < timeout).
  { destruct O as [O U]. destruct (U timeout) as (i & I). assert (H : timeout <= snd (l i)) by (destruct (O i); lia). clear I.
    induction i as [i IH] using lt_wf_ind.
    assert (D : (forall k, k < i -> snd (l k) < timeout) \/ exists k, k < i /\ timeout <= snd (l k)).
    { clear. induction i as [|i [IH|(k & K & H)]]; [left; intros; lia| |right; exists k; split; auto; lia].
      destruct (Nat.le_gt_cases timeout (snd (l i))) as [Z|Z]; [right; eauto|left]. intros k K. destruct (Nat.eq_dec k i) as [->|]; auto. apply IH. lia. }
    destruct D as [D|(k & K & D)]; eauto. }
  destruct M as (j & J & N). assert (XX : forall u, exited_by c u = None) by (intros; unfold exited_by; now rewrite X).
  eexists. eapply W_loop; eauto. apply (loop_intro c timeout l _ j 0).
  - cbn. eapply L_timeout; eauto.
  - cbn. intros k K. split; auto. right. apply N. lia.
Qed.
(** A command that cannot be started leaves the test unresolved, at once and whatever the limit. *)
Theorem C44_not_started timeout l r : sh_wait NoSpawn timeout l r <-> r = Ends Unresolved 0 false.
Proof. split; [intros W; inversion W; subst; try discriminate; reflexivity|intros ->; now apply W_spawn]. Qed.
(** C44 is false of a child that keeps running with its outputs open: waiting for it never ends,
    whatever the limit. *)
Theorem C44_hang_refuted takes timeout l r : ~ sh_wait (Spawned (mkChild takes None None)) timeout l r.
Proof.
  intros W. inversion W as [E|? E P|c0 t ? E _ T L0 L]; subst; try discriminate. injection E as <-.
  destruct (loop_inv _ _ _ _ _ L) as (j & _ & _ & [(code & e & _ & C & _)|(e & _ & _ & _ & C & _)]); discriminate.
Qed.
(** More generally, while its outputs stay open a child that exceeds the limit is not stopped: TIMEOUT
    is reported only when they are closed. *)
Theorem C44_not_stopped_refuted c timeout l at_ z : ch_closes c = Some z -> sh_wait (Spawned c) timeout l (Ends Timeout at_ true) -> z <= at_.
Proof.
  intros C W. inversion W as [|? ? P|c0 t ? E _ T L0 L]; try discriminate. injection E as <-.
  destruct (loop_inv _ _ _ _ _ L) as (j & _ & _ & [(code & e & _ & _ & R)|(e & _ & _ & _ & C' & R)]); [discriminate|]. injection R as ->. rewrite C in C'. injection C' as <-. lia.
Qed.
(** A child that does not read its input is never given up on either. *)
Theorem C44_input_refuted exits closes timeout l r : ~ sh_wait (Spawned (mkChild None exits closes)) timeout l r.
Proof. intros W. inversion W as [E|? E P|c0 t ? E _ T L0 L]; subst; try discriminate. injection E as <-. discriminate. Qed.
(** A child that exits before the limit can be reported as timed out, when the waiting thread is
    suspended between looking and reading the clock. *)
Theorem C44_race_refuted : exists c l, orderly l /\ ch_exits c = Some (3, Some 0%Z) /\ sh_wait (Spawned c) 10 l (Ends Timeout 20 true).
Proof.
  exists (mkChild (Some 0) (Some (3, Some 0%Z)) (Some 3)), (fun i => match i with 0 => (2, 20) | S _ => (20 + i, 20 + i) end). splits; auto.
  - split; [intros [|[|i]]; cbn; lia|]. intros t. exists (S t). cbn. lia.
  - set (l := fun i => _). assert (H : loop (mkChild (Some 0) (Some (3, Some 0%Z)) (Some 3)) 10 l 0 (Ends Timeout (Nat.max (snd (l 0)) 3) true)).
    { apply L_timeout; cbn; auto; lia. }
    eapply W_loop; [reflexivity|reflexivity|reflexivity|cbn; lia|exact H].
Qed.
(** C53 is false of every executable test that can be started: lit aborts. *)
Theorem C53_executable_refuted c timeout l r : exe_wait (Spawned c) timeout l r -> r = Aborts.
Proof. intros W. inversion W; subst; auto; discriminate. Qed.
Theorem C53_executable_aborts_refuted c timeout l : exe_wait (Spawned c) timeout l Aborts.
Proof. eapply W_stdin; eauto. Qed.
Example C44_ex : sh_wait (Spawned (mkChild (Some 1) (Some (4, Some 7%Z)) (Some 5))) 10 (fun i => (2 * i + 1, 2 * i + 2)) (Ends Fail 6 false).
Proof.
  eapply W_loop; [reflexivity|reflexivity|reflexivity|cbn; lia|]. apply (loop_intro _ _ _ _ 2 0).
  - cbn. exact (L_exit (mkChild (Some 1) (Some (4, Some 7%Z)) (Some 5)) 10 (fun i => (2 * i + 1, 2 * i + 2)) 2 (Some 7%Z) 5 eq_refl eq_refl).
  - intros [|[|k]] K; cbn in K; try lia; split; cbn; auto; right; lia.
Qed.
Print Assumptions C44_own_status.
Print Assumptions C44_timeout_late.
Print Assumptions C44_in_time_partial.
Print Assumptions C44_times_out_partial.
Print Assumptions C44_not_started.
