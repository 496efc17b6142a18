(** C36, C37: the test list is a sequence; splitting it. *)
From Verif Require Import Base Text_Model Cursor_Model List_Model List_Spec.
Ltac splits := repeat match goal with |- _ /\ _ => split end.
Section P.
Context {A : Type}.
Implicit Types (p q l s : list A) (t : tlist A) (c : cur A).

(** Running operations on the model. *)
Definition m_step c (o : cop A) : res (out A * cur A) :=
  match o with
  | Next => do c' <- move_next c; Val (ONone, c')
  | Prev => do c' <- move_prev c; Val (ONone, c')
  | Get => Val (OItem (get c), c)
  | IsNull => Val (OBool (is_null c), c)
  | Remove => do r <- remove c; Val (OItem (fst r), snd r)
  | InsAfter x => Val (ONone, insert_after c x)
  | InsBefore x => Val (ONone, insert_before c x)
  | SplAfter l => Val (ONone, splice_after c (mkT (length l) l))
  | SplBefore l => Val (ONone, splice_before c (mkT (length l) l))
  | SplitAfter => do r <- split_after c; Val (OList (t_len (fst r)) (t_items (fst r)), snd r)
  end.
Fixpoint m_run c (os : list (cop A)) : res (list (out A) * cur A) :=
  match os with
  | [] => Val ([], c)
  | o :: r => do x <- m_step c o; do y <- m_run (snd x) r; Val (fst x :: fst y, snd y)
  end.
Definition t_step t (o : lop A) : res (list (out A) * tlist A) :=
  match o with
  | Push x => Val ([], push_back t x)
  | PopFront => do r <- pop_front t; Val ([OItem (fst r)], snd r)
  | PopBack => do r <- pop_back t; Val ([OItem (fst r)], snd r)
  | Clear => Val ([], clear t)
  | Append l => Val ([], append t (mkT (length l) l))
  | Len => Val ([OList (t_len t) []], t)
  | IsEmpty => Val ([OBool (is_empty t)], t)
  | Iterate => Val ([OList (t_len t) (iter_collect (S (t_len t)) (list_iter t))], t)
  | AtFront os => do r <- m_run (front_mut t) os; Val (fst r, release (snd r))
  | AtBack os => do r <- m_run (back_mut t) os; Val (fst r, release (snd r))
  end.
Fixpoint t_run t (os : list (lop A)) : res (list (out A) * tlist A) :=
  match os with
  | [] => Val ([], t)
  | o :: r => do x <- t_step t o; do y <- t_run (snd x) r; Val (fst x ++ fst y, snd y)
  end.

(** The operations whose position bookkeeping is right: splicing before the cursor only single
    elements, splicing after the null position likewise, and starting at the back only when the back
    is also the front. *)
Definition fine_c (z : list A * list A) (o : cop A) : Prop :=
  match o with
  | SplAfter l => snd z = [] -> length l = 1
  | SplBefore l => length l = 1
  | _ => True
  end.
Fixpoint fine_cs (z : list A * list A) (os : list (cop A)) : Prop :=
  match os with [] => True | o :: r => fine_c z o /\ fine_cs (snd (z_step z o)) r end.
Definition fine_l s (o : lop A) : Prop :=
  match o with
  | AtFront os => fine_cs ([], s) os
  | AtBack os => length s <= 1 /\ fine_cs ([], s) os
  | _ => True
  end.
Fixpoint fine_ls s (os : list (lop A)) : Prop :=
  match os with [] => True | o :: r => fine_l s o /\ fine_ls (snd (s_step s o)) r end.

Definition rep c (z : list A * list A) : Prop :=
  c_items c = fst z ++ snd z /\ c_len c = length (fst z) + length (snd z) /\ c_pos c = length (fst z) /\
  c_at c = match snd z with [] => None | _ => Some (length (fst z)) end.

Lemma firstn_len p q : firstn (length p) (p ++ q) = p.
Proof. rewrite firstn_app, Nat.sub_diag, firstn_all. simpl. apply app_nil_r. Qed.
Lemma skipn_len p q : skipn (length p) (p ++ q) = q.
Proof. rewrite skipn_app, Nat.sub_diag, skipn_all. reflexivity. Qed.
Lemma firstn_S p x q : firstn (S (length p)) (p ++ x :: q) = p ++ [x].
Proof. replace (p ++ x :: q) with ((p ++ [x]) ++ q) by (rewrite <- app_assoc; auto). replace (S (length p)) with (length (p ++ [x])) by (rewrite app_length; simpl; lia). apply firstn_len. Qed.
Lemma skipn_S p x q : skipn (S (length p)) (p ++ x :: q) = q.
Proof. replace (p ++ x :: q) with ((p ++ [x]) ++ q) by (rewrite <- app_assoc; auto). replace (S (length p)) with (length (p ++ [x])) by (rewrite app_length; simpl; lia). apply skipn_len. Qed.
Lemma nth_len p x q : nth_error (p ++ x :: q) (length p) = Some x.
Proof. rewrite nth_error_app2, Nat.sub_diag; auto. Qed.
Lemma last_split p : p <> [] -> exists p' x, p = p' ++ [x].
Proof. intros H. destruct (exists_last H) as (p' & x & ->). eauto. Qed.

Lemma z_prev p x q : z_step (p ++ [x], q) Prev = (@ONone A, (p, x :: q)).
Proof.
  cbn [z_step]. destruct (p ++ [x]) as [|a r] eqn:Q; [destruct p; discriminate|]. rewrite <- Q, removelast_last, rev_app_distr. reflexivity.
Qed.
Lemma step_ok c z o : rep c z -> fine_c z o ->
  exists x c', m_step c o = Val (x, c') /\ x = fst (z_step z o) /\ rep c' (snd (z_step z o)).
Proof.
  destruct c as [n k items a], z as [p q]. intros (E1 & E2 & E3 & E4) F. cbn [c_items c_len c_pos c_at fst snd] in *. subst.
  destruct o; cbn [m_step].
  - unfold move_next. cbn [c_items c_len c_pos c_at is_null]. destruct q as [|y q].
    + cbn [length]. rewrite Nat.add_0_r, Nat.eqb_refl, app_nil_r. cbn [bind]. eexists _, _. split; [reflexivity|]. split; [reflexivity|]. unfold rep; cbn. splits; auto; destruct p; reflexivity.
    + cbn [length]. destruct (length p =? length p + S (length q)) eqn:Q; [apply Nat.eqb_eq in Q; lia|]. cbn [bind].
      eexists _, _. split; [reflexivity|]. split; [reflexivity|]. unfold rep. cbn [z_step c_items c_len c_pos c_at fst snd ll_next length]. rewrite <- app_assoc, !app_length. cbn [length app]. splits; auto; try lia.
      destruct q as [|y' q]; cbn [length].
      * destruct (S (length p) <? length p + 1) eqn:Z; auto. apply Nat.ltb_lt in Z; lia.
      * destruct (S (length p) <? length p + S (S (length q))) eqn:Z; [|apply Nat.ltb_ge in Z; lia]. f_equal. lia.
  - unfold move_prev. cbn [c_items c_len c_pos c_at is_null]. destruct q as [|y q].
    + cbn [length]. rewrite Nat.add_0_r, Nat.eqb_refl, app_nil_r. cbn [bind]. eexists _, _. split; [reflexivity|].
      destruct p as [|x p] using rev_ind; [split; [reflexivity|]; unfold rep; cbn; auto|].
      clear IHp. rewrite z_prev.
      split; [reflexivity|]. unfold rep. cbn [c_items c_len c_pos c_at fst snd]. rewrite app_length. cbn [length]. splits; auto; try lia.
      unfold ll_prev, ll_back. destruct (p ++ [x]) eqn:Q; [destruct p; discriminate|]. rewrite <- Q, app_length. cbn [length]. f_equal; lia.
    + cbn [length]. destruct (length p =? length p + S (length q)) eqn:Q; [apply Nat.eqb_eq in Q; lia|].
      destruct p as [|x p] using rev_ind.
      * cbn. eexists _, _. split; [reflexivity|]. split; [reflexivity|]. unfold rep; cbn. rewrite app_nil_r. splits; auto; lia.
      * clear IHp. rewrite z_prev.
        rewrite app_length. cbn [length]. destruct (length p + 1 =? 0) eqn:Z; [apply Nat.eqb_eq in Z; lia|]. cbn [bind].
        eexists _, _. split; [reflexivity|]. split; [reflexivity|]. unfold rep. cbn [c_items c_len c_pos c_at fst snd length]. rewrite <- app_assoc. splits; auto; try lia.
        rewrite Nat.add_1_r. reflexivity.
  - eexists _, _. split; [reflexivity|]. split; [|unfold rep; auto]. cbn. unfold get. cbn. destruct q; cbn; auto. now rewrite nth_len.
  - eexists _, _. split; [reflexivity|]. split; [|unfold rep; auto]. cbn. destruct q; reflexivity.
  - unfold remove. cbn [c_items c_at]. destruct q as [|y q]; cbn [ll_remove].
    + cbn. eexists _, _. split; [reflexivity|]. split; [reflexivity|]. unfold rep; cbn; auto.
    + rewrite nth_len. cbn [c_len length]. rewrite Nat.add_succ_r. cbn [dec bind fst snd]. eexists _, _. split; [reflexivity|]. split; [reflexivity|].
      rewrite firstn_len, skipn_S. unfold rep; cbn [z_step c_items c_len c_pos c_at fst snd tl]. splits; auto. rewrite app_length. destruct q; cbn [length].
      * rewrite Nat.add_0_r, Nat.ltb_irrefl. reflexivity.
      * destruct (length p <? length p + S (length q)) eqn:Z; auto. apply Nat.ltb_ge in Z; lia.
  - unfold insert_after. cbn [c_items c_at c_len c_pos]. destruct q as [|y q]; cbn [ll_splice_after length].
    + rewrite Nat.add_0_r, Nat.eqb_refl, app_nil_r. eexists _, _. split; [reflexivity|]. split; [reflexivity|]. unfold rep; cbn. rewrite app_nil_r. splits; auto; lia.
    + destruct (length p =? length p + S (length q)) eqn:Q; [apply Nat.eqb_eq in Q; lia|]. eexists _, _. split; [reflexivity|]. split; [reflexivity|].
      rewrite firstn_S, skipn_S. unfold rep; cbn. rewrite <- app_assoc. cbn. splits; auto; lia.
  - unfold insert_before. cbn [c_items c_at c_len c_pos]. destruct q as [|y q]; cbn [ll_splice_before length].
    + eexists _, _. split; [reflexivity|]. split; [reflexivity|]. unfold rep; cbn. rewrite !app_nil_r, app_length. cbn. splits; auto; lia.
    + eexists _, _. split; [reflexivity|]. split; [reflexivity|]. rewrite firstn_len, skipn_len. unfold rep; cbn. rewrite <- app_assoc, app_length. cbn. splits; auto; lia.
  - unfold splice_after. cbn [c_items c_at c_len c_pos t_len t_items]. destruct q as [|y q]; cbn [ll_splice_after length].
    + rewrite Nat.add_0_r, Nat.eqb_refl, app_nil_r. eexists _, _. split; [reflexivity|]. split; [reflexivity|]. unfold rep; cbn. rewrite app_nil_r, app_length. specialize (F eq_refl). splits; auto; lia.
    + destruct (length p =? length p + S (length q)) eqn:Q; [apply Nat.eqb_eq in Q; lia|]. eexists _, _. split; [reflexivity|]. split; [reflexivity|].
      rewrite firstn_S, skipn_S. unfold rep; cbn. rewrite <- app_assoc, app_length. cbn. splits; auto; lia.
  - unfold splice_before. cbn [c_items c_at c_len c_pos t_len t_items]. cbn in F. destruct q as [|y q]; cbn [ll_splice_before length].
    + eexists _, _. split; [reflexivity|]. split; [reflexivity|]. unfold rep; cbn. rewrite !app_nil_r, app_length. cbn. splits; auto; lia.
    + eexists _, _. split; [reflexivity|]. split; [reflexivity|]. rewrite firstn_len, skipn_len. unfold rep; cbn. rewrite <- app_assoc, app_length. cbn. splits; auto; try lia.
  - unfold split_after. cbn [c_items c_at c_len c_pos]. destruct q as [|y q]; cbn [ll_split_after length].
    + rewrite Nat.add_0_r, app_nil_r, Nat.eqb_refl. destruct (length p =? 0) eqn:Z.
      * apply Nat.eqb_eq in Z. destruct p; [|discriminate]. cbn. eexists _, _. split; [reflexivity|]. split; [reflexivity|]. unfold rep; cbn; auto.
      * cbn. eexists _, _. split; [reflexivity|]. split; [reflexivity|]. unfold rep; cbn; auto.
    + destruct (length p + S (length q) =? 0) eqn:Z; [apply Nat.eqb_eq in Z; lia|].
      destruct (length p =? length p + S (length q)) eqn:Q; [apply Nat.eqb_eq in Q; lia|]. rewrite firstn_S, skipn_S.
      destruct (length p + 1 <=? length p + S (length q)) eqn:W; [|apply Nat.leb_gt in W; lia]. cbn. eexists _, _. split; [reflexivity|]. split; [f_equal; lia|]. unfold rep; cbn; auto.
Qed.
Lemma run_ok os : forall c z, rep c z -> fine_cs z os ->
  exists c', m_run c os = Val (fst (z_run z os), c') /\ rep c' (snd (z_run z os)).
Proof.
  induction os as [|o os IH]; intros c z R F; cbn [m_run z_run].
  - exists c. auto.
  - destruct F as [F1 F2]. destruct (step_ok c z o R F1) as (x & c1 & E & X & R1). rewrite E. cbn [bind fst snd].
    destruct (IH c1 _ R1 F2) as (c2 & E2 & R2). rewrite E2. cbn [bind fst snd]. destruct (z_step z o) as [y z']. cbn [fst snd] in *. subst.
    destruct (z_run z' os) as [ys z'']. exists c2. auto.
Qed.

Lemma iter_collect_S n (i : iter A) : iter_collect (S n) i = match iter_next i with (Some x, i') => x :: iter_collect n i' | (None, _) => [] end.
Proof. reflexivity. Qed.
Lemma iterate_all s : iter_collect (S (length s)) (list_iter (mkT (length s) s)) = s.
Proof.
  assert (G : forall q p, iter_collect (S (length q)) (mkI (length p) (length p + length q) (p ++ q) (match q with [] => None | _ => Some (length p) end)) = q).
  { induction q as [|y q IH]; intros p; rewrite iter_collect_S; cbn [length]; unfold iter_next; cbn [i_lo i_hi i_at i_items].
    - rewrite Nat.add_0_r, Nat.ltb_irrefl. reflexivity.
    - destruct (length p <? length p + S (length q)) eqn:Z; [|apply Nat.ltb_ge in Z; lia]. cbn [at_ i_at i_items]. rewrite nth_len. f_equal.
      etransitivity; [|apply (IH (p ++ [y]))]. f_equal. rewrite <- app_assoc. cbn [app]. rewrite !app_length. cbn [length].
      f_equal; try lia. unfold ll_next. rewrite app_length. cbn [length]. destruct q; cbn [length].
      + destruct (S (length p) <? length p + 1) eqn:W; auto. apply Nat.ltb_lt in W; lia.
      + destruct (S (length p) <? length p + S (S (length q))) eqn:W; [f_equal; lia|]. apply Nat.ltb_ge in W; lia. }
  specialize (G s []). cbn in G. unfold list_iter. cbn [t_len t_items]. unfold ll_front. destruct s; exact G.
Qed.
Lemma append_eq s l : append (mkT (length s) s) (mkT (length l) l) = mkT (length (s ++ l)) (s ++ l).
Proof.
  unfold append. cbn [t_len t_items]. rewrite app_length. f_equal. unfold ll_back. destruct s as [|x s] using rev_ind; [cbn; now rewrite app_nil_r|].
  clear IHs. destruct (s ++ [x]) eqn:Q; [destruct s; discriminate|]. rewrite <- Q, app_length. cbn [length ll_splice_after fst].
  replace (length s + 1 - 1) with (length s) by lia. rewrite firstn_S, skipn_S, app_nil_r. reflexivity.
Qed.
Lemma step_l s o : fine_l s o -> exists t', t_step (mkT (length s) s) o = Val (fst (s_step s o), t') /\
  t' = mkT (length (snd (s_step s o))) (snd (s_step s o)).
Proof.
  intros F. destruct o; cbn [t_step s_step fst snd].
  - eexists. split; [reflexivity|]. unfold push_back. cbn. now rewrite app_length.
  - unfold pop_front. cbn. destruct s; cbn; eauto.
  - unfold pop_back. cbn. destruct s as [|x s] using rev_ind; [cbn; eauto|]. clear IHs. rewrite rev_app_distr. cbn. rewrite app_length, Nat.add_comm. cbn.
    eexists. split; [reflexivity|]. rewrite removelast_last, rev_involutive. reflexivity.
  - eexists. split; [reflexivity|]. reflexivity.
  - eexists. split; [reflexivity|]. apply append_eq.
  - eexists; eauto.
  - eexists; eauto.
  - cbn [t_len]; rewrite iterate_all. eexists; eauto.
  - assert (R : rep (front_mut (mkT (length s) s)) ([], s)) by (unfold rep, front_mut; cbn; splits; auto).
    destruct (run_ok l _ _ R F) as (c' & E & R'). rewrite E. cbn [bind fst snd]. destruct (z_run ([], s) l) as [xs [p q]]. cbn [fst snd] in *.
    eexists. split; [reflexivity|]. destruct R' as (R1 & R2 & _). unfold release. rewrite R1, R2, app_length. reflexivity.
  - destruct F as [L F].
    assert (Z : (removelast s, match rev s with x :: _ => [x] | [] => [] end) = ([], s)) by (destruct s as [|x [|? ?]]; cbn in *; auto; lia).
    rewrite Z.
    assert (R : rep (back_mut (mkT (length s) s)) ([], s)) by (unfold rep, back_mut; cbn; splits; auto; destruct s as [|x [|? ?]]; cbn in *; auto; lia).
    destruct (run_ok l _ _ R F) as (c' & E & R'). rewrite E. cbn [bind fst snd]. destruct (z_run ([], s) l) as [xs [p q]]. cbn [fst snd] in *.
    eexists. split; [reflexivity|]. destruct R' as (R1 & R2 & _). unfold release. rewrite R1, R2, app_length. reflexivity.
Qed.

(** C36: every history of operations answers like a sequence and never aborts. *)
Theorem C36_sequence_partial (os : list (lop A)) : fine_ls [] os ->
  exists t, t_run empty os = Val (fst (s_run [] os), t) /\ t_items t = snd (s_run [] os) /\ t_len t = length (t_items t).
Proof.
  assert (G : forall os s, fine_ls s os -> t_run (mkT (length s) s) os = Val (fst (s_run s os), mkT (length (snd (s_run s os))) (snd (s_run s os)))).
  { induction os0 as [|o os0 IH]; intros s F; cbn [t_run s_run]; auto. destruct F as [F1 F2].
    destruct (step_l s o F1) as (t' & E & ->). rewrite E. cbn [bind fst snd]. rewrite (IH _ F2). destruct (s_step s o) as [x s']. cbn [fst snd bind].
    destruct (s_run s' os0) as [ys s'']. reflexivity. }
  intros F. change empty with (mkT (length (@nil A)) (@nil A)). rewrite (G os [] F). eexists. split; [reflexivity|]. auto.
Qed.

(** * C37 *)
Lemma moves_ok n : forall p q c, rep c (p, q) -> n < length q -> exists p' q' c', moves n c = Val c' /\ rep c' (p', q') /\
  p' ++ q' = p ++ q /\ length p' = length p + n.
Proof.
  induction n as [|n IH]; intros p q c R L; cbn [moves].
  - exists p, q, c. splits; auto.
  - destruct q as [|y q]; [simpl in L; lia|]. destruct (step_ok c (p, y :: q) Next R I) as (x & c1 & E & _ & R1). cbn [m_step] in E.
    destruct (move_next c) as [c1'| |]; try discriminate. cbn [bind] in *. assert (c1' = c1) as -> by congruence. cbn [z_step snd] in R1.
    destruct (IH (p ++ [y]) q c1 R1 ltac:(simpl in L; lia)) as (p' & q' & c' & E2 & R2 & EQ & L2). exists p', q', c'. splits; auto.
    + rewrite EQ, <- app_assoc. reflexivity.
    + rewrite L2, app_length. simpl. lia.
Qed.
(** Splitting at [i] gives the first [i + 1] elements and the rest. *)
Theorem C37_split_at_partial s i : i < length s ->
  split_at (mkT (length s) s) i = Val (mkT (i + 1) (firstn (i + 1) s), mkT (length s - (i + 1)) (skipn (i + 1) s)).
Proof.
  intros L. unfold split_at. cbn [is_empty t_items t_len]. unfold is_empty; cbn [t_items]. destruct s as [|x s0] eqn:S; [simpl in L; lia|]. rewrite <- S in *.
  assert (R : rep (front_mut (mkT (length s) s)) ([], s)) by (unfold rep, front_mut; cbn; splits; auto; subst; auto).
  apply Nat.ltb_lt in L as L'. rewrite L'. destruct (moves_ok i [] s _ R L) as (p & q & c & E & R1 & EQ & LP). rewrite E. cbn [bind].
  assert (Q : q <> []). { intros ->. rewrite app_nil_r in EQ. cbn in EQ. rewrite <- EQ in L. cbn in LP. lia. }
  destruct q as [|y q]; [congruence|]. cbn in EQ, LP.
  destruct (step_ok c (p, y :: q) SplitAfter R1 I) as (o & c1 & E1 & O & R2). cbn [m_step] in E1. cbn [z_step fst snd] in *.
  assert (NN : is_null c = false) by (destruct R1 as (_ & _ & _ & Z); unfold is_null; rewrite Z; reflexivity). rewrite NN.
  destruct (split_after c) as [[u c2]| |] eqn:SA; try discriminate. cbn [bind fst snd] in *. assert (c2 = c1) as -> by congruence.
  assert (T : OList (t_len u) (t_items u) = OList (length q) q) by congruence. injection T as T1 T2. destruct u as [ul ui]. cbn in T1, T2. subst ul ui.
  destruct R2 as (R21 & R22 & _). unfold release. rewrite R21, R22. cbn [fst snd length]. 
  assert (S1 : firstn (i + 1) s = p ++ [y]) by (rewrite <- EQ, <- LP, Nat.add_1_r; apply firstn_S).
  assert (S2 : skipn (i + 1) s = q) by (rewrite <- EQ, <- LP, Nat.add_1_r; apply skipn_S).
  rewrite S1, S2, LP. f_equal. f_equal. f_equal. rewrite <- EQ, app_length. cbn. lia.
Qed.
Lemma drain_all s : forall n, length s < n -> drain n (mkT (length s) s) = Val s.
Proof.
  induction s as [|x s IH]; intros [|n] L; simpl in L; try lia; cbn [drain]; auto.
  unfold pop_front. cbn [t_items t_len length dec bind]. rewrite IH by lia. reflexivity.
Qed.
(** C37, for the runner's own splitting rule: however often each part is split again, nothing aborts
    and the parts in order are the list: every test is handed to exactly one worker. *)
Theorem C37_parts_partial (tr : tree) s : exists parts, bridge_unindexed (mkT (length s) s) tr = Val parts /\ concat parts = s.
Proof.
  revert s. induction tr as [|l IHl r IHr]; intros s; cbn [bridge_unindexed].
  - rewrite drain_all by (simpl; lia). cbn. eexists. split; [reflexivity|]. apply app_nil_r.
  - unfold unindexed_split. cbn [t_len]. destruct (length s <? 2) eqn:Z.
    + cbn [bind fst snd]. rewrite drain_all by (simpl; lia). cbn. eexists. split; [reflexivity|]. apply app_nil_r.
    + apply Nat.ltb_ge in Z. assert (H : length s / 2 < length s) by (apply Nat.div_lt; lia). rewrite (C37_split_at_partial s _ H). cbn [bind fst snd].
      set (i := length s / 2 + 1). assert (I : i <= length s) by (unfold i; lia).
      destruct (IHl (firstn i s)) as (a & EA & CA). destruct (IHr (skipn i s)) as (b & EB & CB).
      rewrite firstn_length, Nat.min_l in EA by lia. rewrite skipn_length in EB. rewrite EA. cbn [bind]. rewrite EB. cbn [bind].
      exists (a ++ b). split; auto. rewrite concat_app, CA, CB. apply firstn_skipn.
Qed.
End P.

(** C37 is false of the left part's length: it has one test more than asked for. *)
Theorem C37_length_refuted : split_at (mkT 2 [1; 2]) 1 = Val (mkT 2 [1; 2], mkT 0 []).
Proof. reflexivity. Qed.
(** Under the protocol for producers of known length, which trusts the requested lengths, splitting
    four tests twice aborts. *)
Theorem C37_protocol_refuted : bridge 4 (mkT 4 [1; 2; 3; 4]) (Split (Split Leaf Leaf) (Split Leaf Leaf)) = Panic.
Proof. reflexivity. Qed.
(** C36 is false of cursors that start at the back ... *)
Theorem C36_back_refuted : t_run (mkT 2 [1; 2]) [AtBack [SplitAfter]; Len] = Val ([OList 1 []; OList 1 []], mkT 1 [1; 2]).
Proof. reflexivity. Qed.
(** ... of splicing several tests after the null position, after which moving on aborts ... *)
Theorem C36_splice_after_refuted : t_run (mkT 1 [1]) [AtFront [Next; SplAfter [2; 3]; Next; Next]] = Panic.
Proof. reflexivity. Qed.
(** ... of splicing several before the cursor, after which a split reports a wrong length ... *)
Theorem C36_splice_before_refuted : t_run (mkT 1 [1]) [AtFront [SplBefore [2; 3]; SplitAfter]] = Val ([ONone; OList 1 []], mkT 2 [2; 3; 1]).
Proof. reflexivity. Qed.
(** ... and of iterating backwards, which starts at the front and ends early. *)
Theorem C36_iter_back_refuted : iter_collect_back 10 (list_iter (mkT 3 [1; 2; 3])) = [1].
Proof. reflexivity. Qed.
Example C36_ex : fine_ls [] [Push 1; Append [2; 3; 4]; AtFront [Next; Remove; InsBefore 9; SplitAfter]; PopBack; Len; Iterate] /\ s_run [] [Push 1; Append [2; 3; 4]; AtFront [Next; Remove; InsBefore 9; SplitAfter]; PopBack; Len; Iterate] =
    ([ONone; OItem (Some 2); ONone; OList 1 [4]; OItem (Some 3); OList 2 []; OList 2 [1; 9]], [1; 9]).
Proof. split; [cbn; tauto|reflexivity]. Qed.
Example C37_ex : bridge_unindexed (mkT 5 [1; 2; 3; 4; 5]) (Split (Split Leaf Leaf) Leaf) = Val [[1; 2]; [3]; [4; 5]].
Proof. reflexivity. Qed.
Print Assumptions C36_sequence_partial.
Print Assumptions C37_split_at_partial.
Print Assumptions C37_parts_partial.
