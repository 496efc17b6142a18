(** C82: a group of CHECK-DAG texts matches exactly if one sweep sees them all. *)
From Verif Require Import Base Text_Model Text_Spec Cursor_Model Cursor_Spec Check_Model Check_Spec Lit_Model Lit_Spec Lit_Proofs Sweep_Spec.
Open Scope list_scope.
Ltac splits := repeat match goal with |- _ /\ _ => split end.

Definition entries (ps : list lit) : list (bytes * nat) := map (fun p => (lit_text p, lit_span p)) ps.
Definition hits (out : list minfo) : matches := map (fun i => mkRes Good (Some i)) out.
Lemma infos_hits out : infos (hits out) = out.
Proof. induction out as [|i out IH]; [reflexivity|]. cbn. now f_equal. Qed.
Section Sweep.
Context (b : bytes) (ps : list lit) (e : nat) (ND : NoDup (map lit_text ps)).
Notation ts := (entries ps).
Lemma entry_in u a : In (u, a) ts <-> exists q, In q ps /\ lit_text q = u /\ lit_span q = a.
Proof. unfold entries. rewrite in_map_iff. split; [intros (q & [= <- <-] & I); eauto|intros (q & I & <- & <-); eauto]. Qed.
Lemma next_found start i k p : start <= e -> leftmost_set false b ps e (e - start) start = Some (i, k, p) -> next_text b ts e start k i (lit_text p) (lit_span p).
Proof.
  intros Le L. pose proof (leftmost_set_spec false b ps e (e - start) start ltac:(lia)) as Sp. rewrite L in Sp. destruct Sp as (N & (O1 & O2 & O3) & M1 & M2). unfold next_text. splits.
  - unfold entries. rewrite nth_error_map, N. reflexivity.
  - exact O1.
  - split; auto.
  - intros u a i' I B [F1 F2]. apply entry_in in I as (q & I & <- & <-). assert (i <= i') by (apply (M1 q); auto; unfold occurrence; splits; auto; lia). lia.
  - intros u a I [F1 F2]. apply entry_in in I as (q & I & <- & <-). apply M2; auto. unfold occurrence. auto.
Qed.
Lemma found_next start k i t a : start <= e -> next_text b ts e start k i t a -> exists p, leftmost_set false b ps e (e - start) start = Some (i, k, p) /\ lit_text p = t /\ lit_span p = a.
Proof.
  intros Le (N & O1 & [F1 F2] & M1 & M2). pose proof (leftmost_set_spec false b ps e (e - start) start ltac:(lia)) as Sp.
  unfold entries in N. rewrite nth_error_map in N. destruct (nth_error ps k) as [p|] eqn:Np; [|discriminate]. injection N as <- <-. pose proof (nth_error_In _ _ Np) as Ip.
  assert (Oc : occurrence false b p start e i) by (unfold occurrence; auto).
  destruct (leftmost_set false b ps e (e - start) start) as [[[i' k'] p']|]; [|now elim (Sp p i Ip)].
  destruct Sp as (N' & (O1' & O2' & O3') & M1' & M2'). pose proof (nth_error_In _ _ N') as Ip'.
  assert (i' = i).
  { apply Nat.le_antisymm; [now apply (M1' p)|]. destruct (Nat.le_gt_cases i i') as [|Lt]; [assumption|]. exfalso. apply (M1 (lit_text p') (lit_span p') i'); [apply entry_in; eauto|lia|split; auto]. }
  subst i'. assert (Tx : lit_text p' = lit_text p).
  { eapply text_at_unique; eauto. apply Nat.le_antisymm; [|now apply M2']. apply (M2 _ (lit_span p')); [apply entry_in; eauto|split; auto]. }
  assert (k' = k) as ->.
  { apply (NoDup_nth_error (map lit_text ps)); [exact ND|rewrite map_length; apply nth_error_Some; congruence|]. rewrite !nth_error_map, N', Np. cbn. now f_equal. }
  rewrite Np in N'. injection N' as <-. eauto.
Qed.
Lemma all_seen pos seen out : swept b ts e pos seen out -> (forall k, k < length ts -> In k seen) -> out = [].
Proof.
  induction 1 as [pos seen H|pos seen k i t a out Nx Ns Sw IH|pos seen k i t a out Nx Is Sw IH]; intros A; [reflexivity| |auto].
  elim Ns. apply A. apply nth_error_Some. destruct Nx as (N & _). congruence.
Qed.
(** One step of the visit *)
Lemma got_push s start got i k p : got_ok ps b s start got -> start <= i -> s <= start -> nth_error ps k = Some p -> text_at false b (lit_text p) i -> existsb (same_id k) got = false ->
  let m := mkRes Good (Some (mkInfo (mkRange i (i + length (lit_text p))) k (lit_span p))) in
  ms_push got m = got ++ [m] /\ got_ok ps b s (i + length (lit_text p)) (got ++ [m]).
Proof.
  intros G Li Ls N Tx SK m. split.
  - apply (push_last got m (mkInfo (mkRange i (i + length (lit_text p))) k (lit_span p))); [reflexivity|].
    intros x X. destruct G as (A & _). destruct (A x X) as (j & q & _ & J & _ & SP & _ & _ & EN). exists j. split; auto. rewrite SP in EN. simpl in EN. simpl. lia.
  - destruct G as (A & B & C & D). split; [|split; [|split]].
    + intros x X. apply in_app_or in X as [X|[<-|[]]].
      * destruct (A x X) as (j & q & X1 & X2 & X3 & X4 & X5 & X6 & X7). exists j, q. splits; auto. lia.
      * eexists; exists p. splits; try reflexivity; simpl; auto; try lia.
    + rewrite infos_app. apply in_order_app. split; auto. simpl. split; auto. simpl. lia.
    + rewrite infos_app, last_end_app. simpl. lia.
    + rewrite infos_app, map_app. simpl. apply nodup_snoc; auto. intros X. apply same_id_in in X. congruence.
Qed.
Lemma got_stay s start stop got : got_ok ps b s start got -> start <= stop -> got_ok ps b s stop got.
Proof.
  intros (A & B & C & D) L. split; [|split; [|split]]; auto; try lia. intros m M. destruct (A m M) as (j & q & X1 & X2 & X3 & X4 & X5 & X6 & X7). exists j, q. splits; auto. lia.
Qed.
Lemma not_inside s start got i stop : got_ok ps b s start got -> start <= i -> i <= stop -> existsb (inside i stop) got = false.
Proof.
  intros (A & _) L1 L2. destruct (existsb (inside i stop) got) eqn:X; [|reflexivity]. apply existsb_exists in X as (m & M & X). destruct (A m M) as (j & q & _ & I & _ & _ & _ & _ & EN).
  unfold inside in X. rewrite I in X. unfold range_contains in X. apply orb_true_iff in X as [X|X]; apply andb_true_iff in X as [_ X]; apply Nat.ltb_lt in X; lia.
Qed.
Lemma visit_swept fuel : forall s start got seen ms pos, e <= length b -> s <= start <= e -> e - start < fuel -> got_ok ps b s start got -> length got < length ps ->
  (forall k, In k seen <-> In k (map i_id (infos got))) -> visit fuel b ps e start got = Val (ms, pos) -> ms_ok ms = true ->
  exists out, out <> [] /\ ms = got ++ hits out /\ pos = Some (last_end start out) /\ swept b ts e start seen out.
Proof.
  induction fuel as [|fuel IH]; intros s start got seen ms pos EL SE FU G LG Sn V Ok; [lia|]. cbn [visit] in V.
  destruct (leftmost_set false b ps e (e - start) start) as [[[i k] p]|] eqn:L.
  - pose proof (next_found start i k p ltac:(lia) L) as Nx. pose proof (leftmost_set_spec false b ps e (e - start) start ltac:(lia)) as Sp. rewrite L in Sp. destruct Sp as (N & (O1 & O2 & O3) & _).
    assert (Lp : 0 < length (lit_text p)) by (simpl; lia).
    rewrite (not_inside s start got i (i + length (lit_text p)) G O1 ltac:(lia)), Bool.orb_false_r in V. destruct (existsb (same_id k) got) eqn:SK.
    + destruct (IH s (i + length (lit_text p)) got seen ms pos) as (out & Ne & E1 & E2 & Sw); auto; try lia; [eapply got_stay; [exact G|lia]|].
      exists out. splits; auto; [destruct out; [easy|exact E2]|]. eapply sw_again; eauto. apply Sn. now apply same_id_in.
    + destruct (got_push s start got i k p G O1 (proj1 SE) N O3 SK) as [PL G']. cbv zeta in *. rewrite PL in V.
      assert (Ns : ~ In k seen) by (intros X; apply Sn, same_id_in in X; congruence).
      set (m := mkRes Good (Some (mkInfo (mkRange i (i + length (lit_text p))) k (lit_span p)))) in *.
      assert (Sn' : forall k0, In k0 (k :: seen) <-> In k0 (map i_id (infos (got ++ [m])))).
      { intros k0. rewrite infos_app, map_app, in_app_iff, <- Sn. cbn. tauto. }
      destruct (Nat.eqb_spec (length ps) (length (got ++ [m]))) as [Q|Q].
      * injection V as <- <-. exists [mkInfo (mkRange i (i + length (lit_text p))) k (lit_span p)]. splits; [discriminate|reflexivity|reflexivity|].
        apply sw_new; auto. apply sw_done. intros k0 K0. apply Sn'. unfold entries in K0. rewrite map_length in K0.
        destruct (in_dec Nat.eq_dec k0 (map i_id (infos (got ++ [m])))) as [|Nk]; [assumption|]. exfalso.
        pose proof (got_ids _ _ _ _ _ G') as Gi. pose proof (got_all_info _ _ _ _ _ G') as Ga. destruct G' as (_ & _ & _ & Nd).
        assert (Z : length (k0 :: map i_id (infos (got ++ [m]))) <= length (seq 0 (length ps))).
        { apply NoDup_incl_length; [constructor; auto|]. intros x [<-|X]; apply in_seq; [lia|]. specialize (Gi x X). lia. }
        cbn [length] in Z. rewrite map_length, seq_length, Ga in Z. lia.
      * destruct (IH s (i + length (lit_text p)) (got ++ [m]) (k :: seen) ms pos) as (out & Ne & E1 & E2 & Sw); auto; try lia; [pose proof (got_len _ _ _ _ _ G'); lia|].
        exists (mkInfo (mkRange i (i + length (lit_text p))) k (lit_span p) :: out). splits; [discriminate|rewrite E1, <- app_assoc; reflexivity|destruct out; [easy|exact E2]|]. now apply sw_new.
  - destruct (Nat.eqb_spec (length ps) (length got)) as [Q|Q]; [lia|]. injection V as <- _. rewrite missing_bad in Ok; [discriminate|]. right. eapply got_missing; eauto.
Qed.
Lemma swept_visit start seen out : swept b ts e start seen out -> forall fuel s got, e <= length b -> s <= start <= e -> e - start < fuel -> got_ok ps b s start got -> length got < length ps ->
  (forall k, In k seen <-> In k (map i_id (infos got))) -> visit fuel b ps e start got = Val (got ++ hits out, Some (last_end start out)) /\ out <> [].
Proof.
  induction 1 as [start seen H|start seen k i t a out Nx Ns Sw IH|start seen k i t a out Nx Is Sw IH]; intros fuel s got EL SE FU G LG Sn; (destruct fuel as [|fuel]; [lia|]).
  - exfalso. destruct (got_missing _ _ _ _ _ G LG) as (j & J & Nj). apply Nj, Sn, H. unfold entries. rewrite map_length. lia.
  - cbn [visit]. destruct (found_next start k i t a ltac:(lia) Nx) as (p & -> & Et & Ea). destruct Nx as (N & O1 & [F1 F2] & _). subst t a.
    assert (Np : nth_error ps k = Some p).
    { unfold entries in N. rewrite nth_error_map in N. destruct (nth_error ps k) as [q|] eqn:Nq; [|discriminate]. injection N as E1 E2. f_equal. destruct q, p. cbn in *. congruence. }
    rewrite (not_inside s start got i (i + length (lit_text p)) G O1 ltac:(lia)), Bool.orb_false_r.
    assert (SK : existsb (same_id k) got = false) by (destruct (existsb (same_id k) got) eqn:X; [|reflexivity]; elim Ns; apply Sn; now apply same_id_in).
    rewrite SK. destruct (got_push s start got i k p G O1 (proj1 SE) Np F2 SK) as [PL G']. cbv zeta in *. rewrite PL.
    assert (Lp : 0 < length (lit_text p)) by (simpl; lia).
    set (m := mkRes Good (Some (mkInfo (mkRange i (i + length (lit_text p))) k (lit_span p)))) in *.
    assert (Sn' : forall k0, In k0 (k :: seen) <-> In k0 (map i_id (infos (got ++ [m])))).
    { intros k0. rewrite infos_app, map_app, in_app_iff, <- Sn. cbn. tauto. }
    destruct (Nat.eqb_spec (length ps) (length (got ++ [m]))) as [Q|Q].
    + assert (out = []) as ->; [|split; [reflexivity|discriminate]]. eapply all_seen; [exact Sw|]. intros k0 K0. apply Sn'. unfold entries in K0. rewrite map_length in K0.
      destruct (in_dec Nat.eq_dec k0 (map i_id (infos (got ++ [m])))) as [|Nk]; [assumption|]. exfalso.
      pose proof (got_ids _ _ _ _ _ G') as Gi. pose proof (got_all_info _ _ _ _ _ G') as Ga. destruct G' as (_ & _ & _ & Nd).
      assert (Z : length (k0 :: map i_id (infos (got ++ [m]))) <= length (seq 0 (length ps))).
      { apply NoDup_incl_length; [constructor; auto|]. intros x [<-|X]; apply in_seq; [lia|]. specialize (Gi x X). lia. }
      cbn [length] in Z. rewrite map_length, seq_length, Ga in Z. lia.
    + destruct (IH fuel s (got ++ [m])) as [V Ne]; auto; try lia; [pose proof (got_len _ _ _ _ _ G'); lia|]. split; [|discriminate]. rewrite V, <- app_assoc. destruct out; [easy|reflexivity].
  - cbn [visit]. destruct (found_next start k i t a ltac:(lia) Nx) as (p & -> & Et & Ea). destruct Nx as (N & O1 & [F1 F2] & _). subst t a.
    rewrite (not_inside s start got i (i + length (lit_text p)) G O1 ltac:(lia)), Bool.orb_false_r.
    assert (SK : existsb (same_id k) got = true) by (apply same_id_in, Sn; exact Is). rewrite SK. assert (Lp : 0 < length (lit_text p)) by (simpl; lia).
    destruct (IH fuel s got) as [V Ne]; auto; try lia; [eapply got_stay; [exact G|lia]|]. split; [|exact Ne]. rewrite V. destruct out; [easy|reflexivity].
Qed.
End Sweep.

(** C82: a group of CHECK-DAG directives with different texts matches in a range exactly if one sweep over the range sees all of them; the matches are where it saw them first, and the search goes on after the last one. *)
Theorem dag_texts_swept : forall ci ps b s e en ms en' pos, s <= e <= length b -> ps <> [] -> NoDup (map lit_text ps) ->
  dm (l:=lit_lang ci) ps b (mkRange s e) en = Val (ms, en', pos) ->
  (ms_ok ms = true -> swept b (entries ps) e s [] (infos ms) /\ ms = hits (infos ms) /\ pos = Some (last_end s (infos ms))) /\
  (ms_ok ms = false -> forall out, ~ swept b (entries ps) e s [] out).
Proof.
  intros ci ps b s e en ms en' pos B Ne ND D. cbn [dm lit_lang] in D. unfold lit_dag in D. cbn [rstart rend] in D. rewrite (dedup_id ps ND) in D.
  destruct (visit (S (e - s)) b ps e s []) as [[ms0 pos0]| |] eqn:V; try discriminate. cbn [bind] in D. injection D as -> _ ->.
  assert (L0 : 0 < length ps) by (destruct ps; [easy|simpl; lia]). split.
  - intros Ok. destruct (visit_swept b ps e (S (e - s)) s s [] [] ms pos) as (out & No & -> & -> & Sw); try lia; auto using got_start; [cbn; tauto|]. cbn [app]. rewrite infos_hits. auto.
  - intros Bad out Sw. destruct (swept_visit b ps e ND s [] out Sw (S (e - s)) s []) as [V' _]; try lia; auto using got_start; [cbn; tauto|]. rewrite V in V'. injection V' as -> _. cbn [app] in Bad.
    assert (ms_ok (hits out) = true); [|congruence]. unfold ms_ok, hits. rewrite forallb_forall. intros m I. apply in_map_iff in I as (i & <- & _). reflexivity.
Qed.
Print Assumptions dag_texts_swept.
(** So the outcome does not leave a choice: *)
Theorem swept_once : forall b ps e s out out', e <= length b -> s <= e -> ps <> [] -> NoDup (map lit_text ps) -> swept b (entries ps) e s [] out -> swept b (entries ps) e s [] out' -> out = out'.
Proof.
  intros b ps e s out out' Le Ls Ne ND A A'. assert (L0 : 0 < length ps) by (destruct ps; [easy|simpl; lia]).
  destruct (swept_visit b ps e ND s [] out A (S (e - s)) s []) as [V _]; try lia; auto using got_start; [cbn; tauto|].
  destruct (swept_visit b ps e ND s [] out' A' (S (e - s)) s []) as [V' _]; try lia; auto using got_start; [cbn; tauto|]. rewrite V in V'. injection V' as E _. cbn [app] in E. apply (f_equal infos) in E. now rewrite !infos_hits in E.
Qed.
Print Assumptions swept_once.
(** What a sweep sees lies in the range, one after the other; every text is seen once, where it stands. *)
Theorem swept_places : forall b ts e pos out, pos <= e -> swept b ts e pos [] out ->
  in_order pos out /\ last_end pos out <= e /\ NoDup (map i_id out) /\
  (forall i, In i out -> exists t, nth_error ts (i_id i) = Some (t, i_pspan i) /\ rend (i_span i) = rstart (i_span i) + length t /\ text_at false b t (rstart (i_span i))) /\
  forall t a, In (t, a) ts -> exists i, In i out /\ rend (i_span i) = rstart (i_span i) + length t /\ text_at false b t (rstart (i_span i)).
Proof.
  intros b ts e pos out Le Sw.
  assert (G : forall seen, pos <= e -> swept b ts e pos seen out -> in_order pos out /\ last_end pos out <= e /\ NoDup (map i_id out) /\ (forall k, In k seen -> ~ In k (map i_id out)) /\
    (forall i, In i out -> exists t, nth_error ts (i_id i) = Some (t, i_pspan i) /\ rend (i_span i) = rstart (i_span i) + length t /\ text_at false b t (rstart (i_span i))) /\
    forall k, k < length ts -> In k seen \/ In k (map i_id out)).
  { clear. intros seen Le Sw. revert Le. induction Sw as [pos seen H|pos seen k i t a out Nx Ns Sw IH|pos seen k i t a out Nx Is Sw IH]; intros Le.
    - cbn. splits; auto; [constructor|intros i []].
    - destruct Nx as (N & L1 & [L2 Tx] & _). destruct (IH L2) as (A & B & C & D & F & Z). cbn [map in_order last_end i_span rstart rend i_id]. splits; auto; try lia.
      + constructor; [|exact C]. apply D. now left.
      + intros q Q [X|X]; [subst; contradiction|]. apply (D q); [now right|exact X].
      + intros j [<-|J]; [|now apply F]. exists t. cbn. auto.
      + intros q Q. destruct (Z q Q) as [[<-|X]|X]; [right; now left|now left|right; now right].
    - destruct Nx as (N & L1 & [L2 Tx] & _). destruct (IH L2) as (A & B & C & D & F & Z). splits; auto; try lia.
      + destruct out as [|j out]; [exact Logic.I|]. cbn in *. splits; try tauto. lia.
      + destruct out as [|j out]; [cbn; lia|exact B]. }
  destruct (G [] Le Sw) as (A & B & C & _ & D & F). splits; auto. intros t a I. apply In_nth_error in I as (k & K). destruct (F k) as [[]|X]; [apply nth_error_Some; congruence|].
  apply in_map_iff in X as (i & <- & X). destruct (D i X) as (t' & N & R & Tx). rewrite K in N. injection N as <- _. eauto.
Qed.
Print Assumptions swept_places.
(** ... but it is not enough that the texts stand one after the other in some order: here "bc" and then "ab" do, the sweep takes "ab" first, and there is no "bc" after it. *)
Definition two_texts : list lit := [mkLit 97 [98%N] 0; mkLit 98 [99%N] 1].
Definition two_input : bytes := [97; 98; 99; 97; 98]%N.
Theorem dag_placement_refuted : exists i j, occurrence false two_input (mkLit 98 [99%N] 1) 0 5 i /\ occurrence false two_input (mkLit 97 [98%N] 0) 0 5 j /\ i + 2 <= j /\
  forall out, ~ swept two_input (entries two_texts) 5 0 [] out.
Proof.
  exists 1, 3. splits; try (unfold occurrence; splits; [lia|cbn; lia|]).
  - intros k x H. destruct k as [|[|k]]; [| |destruct k; discriminate]; injection H as <-; eexists; (split; [reflexivity|left; reflexivity]).
  - intros k x H. destruct k as [|[|k]]; [| |destruct k; discriminate]; injection H as <-; eexists; (split; [reflexivity|left; reflexivity]).
  - lia.
  - refine (proj2 (dag_texts_swept false two_texts two_input 0 5 tt [mkRes Good (Some (mkInfo (mkRange 0 2) 0 0)); failed ENone] tt None _ _ _ _) _); [cbn; lia|discriminate| |vm_compute; reflexivity|reflexivity].
    repeat constructor; cbn; intuition discriminate.
Qed.
Print Assumptions dag_placement_refuted.
(** A case: "ab" is seen at 1, passed over at 4, and "bc" is seen at 7. *)
Definition three_places : bytes := [120; 97; 98; 120; 97; 98; 120; 98; 99]%N.
Example sweep_case : NoDup (map lit_text two_texts) /\ swept three_places (entries two_texts) 9 0 [] [mkInfo (mkRange 1 3) 0 0; mkInfo (mkRange 7 9) 1 1].
Proof.
  assert (N : NoDup (map lit_text two_texts)) by (repeat constructor; cbn; intuition discriminate). split; [exact N|].
  refine (proj1 (proj1 (dag_texts_swept false two_texts three_places 0 9 tt [mkRes Good (Some (mkInfo (mkRange 1 3) 0 0)); mkRes Good (Some (mkInfo (mkRange 7 9) 1 1))] tt (Some 9) _ _ N _) _)); [cbn; lia|discriminate|vm_compute; reflexivity|reflexivity].
Qed.
