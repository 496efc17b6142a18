From Verif Require Import Base Text_Model Text_Spec Text_Proofs Cursor_Model Cursor_Spec Cursor_Proofs
  Check_Model Program_Model Check_Spec.

Ltac splits := repeat match goal with |- _ /\ _ => split end.
Ltac inj H := injection H; clear H; intros; subst.

(** * Line ends, computed *)
Definition eol_of (b : bytes) (s : nat) : nat :=
  match find_next_lf b (mkRange s (length b)) with Some (Some i) => i | _ => length b end.
Lemma eol_of_ok b s : s <= length b -> line_end b s (eol_of b s).
Proof.
  intros H. unfold eol_of. destruct (find_next_lf b (mkRange s (length b))) as [[i|]|] eqn:E.
  - apply find_next_lf_some in E as (?&F). destruct F as (?&?&?). simpl in *.
    split; [lia|]. split; auto.
  - apply find_next_lf_none in E as (?&F). simpl in *.
    split; [lia|]. split; auto.
  - unfold find_next_lf in E. destruct (slice_ok b (mkRange s (length b))) as [t T]; simpl; try lia.
    rewrite T in E. discriminate.
Qed.
Lemma eol_of_eq b s i : line_end b s i -> eol_of b s = i.
Proof. intros H. apply (line_end_unique b s); auto. apply eol_of_ok. destruct H; lia. Qed.

(** The start of the following line. *)
Definition next_of (b : bytes) (s : nat) : nat :=
  if eol_of b s <? length b then eol_of b s + 1 else length b.

Lemma start_of_next_line_ok b c : c_buf c = b -> c_start c <= length b ->
  start_of_next_line c = Val (next_of b (c_start c)).
Proof.
  intros B L. unfold start_of_next_line, next_of, newline_next_from. rewrite B.
  destruct (slice_ok b (mkRange (c_start c) (length b))) as [t T]; simpl; try lia. rewrite T.
  set (st := c_start c) in *. simpl.
  destruct (memchr LF t) as [k|] eqn:M; simpl.
  - apply memchr_some in M. apply (slice_first _ _ _ _ _ T) in M. simpl in M.
    assert (LE : line_end b st (st + k)).
    { destruct M as (?&?&?). split; [lia|]. split; auto. }
    rewrite (eol_of_eq _ _ _ LE). destruct M as (?&?&?).
    destruct (Nat.ltb_spec (st + k) (length b)); [|lia].
    destruct (Nat.ltb_spec 0 (st + k)); [|simpl; f_equal; lia].
    destruct (N.eqb _ _); simpl; unfold next_line_start; simpl; f_equal; lia.
  - apply memchr_none in M. apply (slice_nonein _ _ _ _ T) in M. simpl in M.
    assert (LE : line_end b st (length b)) by (split; [lia|split; auto]).
    rewrite (eol_of_eq _ _ _ LE). rewrite Nat.ltb_irrefl. reflexivity.
Qed.

Lemma next_newline_from_ok b c o : c_buf c = b -> c_crlf c = false -> o <= length b ->
  exists x, next_newline_from c o = Val x /\ (x = None \/ x = Some (eol_of b o)) /\
    unwrap_or x (length b) = eol_of b o.
Proof.
  intros B C L. unfold next_newline_from, next_newline_in_range. rewrite B, C.
  rewrite (bounds_of_ok b (Included o) Unbounded o (length b)); simpl; auto using begins_incl; try lia.
  unfold eol_of. destruct (find_next_lf b (mkRange o (length b))) as [[i|]|] eqn:E; simpl.
  - exists (Some i). auto.
  - exists None. auto.
  - unfold find_next_lf in E. destruct (slice_ok b (mkRange o (length b))) as [t T]; simpl; try lia.
    rewrite T in E. discriminate.
Qed.

Lemma at_eol_ok b c : c_buf c = b -> c_crlf c = false -> c_start c <= length b ->
  exists x, at_end_of_line c = Val x /\ (x = true <-> c_start c = length b \/ byte_at b (c_start c) LF).
Proof.
  intros B C L. unfold at_end_of_line, is_end_of_line, is_end_lf, byte_at. rewrite B, C.
  destruct (Nat.eqb_spec (c_start c) (length b)).
  - exists true. split; auto. tauto.
  - destruct (nth_error b (c_start c)) as [x|] eqn:E.
    + simpl. exists (N.eqb x LF). split; auto. rewrite N.eqb_eq. split; [intros ->; auto|].
      intros [?|H]; [lia|]. congruence.
    + apply nth_error_None in E. lia.
Qed.

(** * in_order, last_end *)
Lemma in_order_le pos is : in_order pos is -> pos <= last_end pos is.
Proof. revert pos; induction is as [|i r IH]; simpl; intros; [lia|]. destruct H. specialize (IH _ H0). lia. Qed.
Lemma in_order_app pos a c : in_order pos (a ++ c) <-> in_order pos a /\ in_order (last_end pos a) c.
Proof. revert pos; induction a as [|i r IH]; simpl; intros; [tauto|]. rewrite IH. tauto. Qed.
Lemma last_end_app pos a c : last_end pos (a ++ c) = last_end (last_end pos a) c.
Proof. revert pos; induction a as [|i r IH]; simpl; intros; auto. Qed.
Lemma last_end_nonempty p q is : is <> [] -> last_end p is = last_end q is.
Proof. destruct is; simpl; congruence. Qed.
Lemma in_order_first pos is : in_order pos is -> is <> [] -> pos <= first_start is <= last_end pos is.
Proof. destruct is as [|i r]; simpl; [congruence|]. intros [? H] _. apply in_order_le in H. lia. Qed.
Lemma in_order_weaken p q is : p <= q -> in_order q is -> in_order p is.
Proof. destruct is; simpl; auto. intros ? [? ?]. split; auto. lia. Qed.
Lemma infos_app a c : infos (a ++ c) = infos a ++ infos c.
Proof. induction a as [|m r IH]; simpl; auto. destruct (m_info m); rewrite IH; auto. Qed.

Definition good_m (m : mresult) : Prop := m_ty m = Good /\ m_info m <> None.
Definition good_ms (ms : matches) : Prop := ms <> [] /\ Forall good_m ms.
Lemma good_m_ok m : good_m m -> m_is_ok m = true.
Proof. intros [H _]. unfold m_is_ok. now rewrite H. Qed.
Lemma good_infos ms : good_ms ms -> infos ms <> [].
Proof.
  intros [H F]. destruct F as [|m r [? G] F]; [congruence|]. simpl. destruct (m_info m); congruence.
Qed.

Lemma last_info_ok ms pos : Forall good_m ms -> ms <> [] -> exists z, m_info (last ms (failed ENone)) = Some z /\
  rend (i_span z) = last_end pos (infos ms) /\ last_info ms = Some z /\ In (last ms (failed ENone)) ms.
Proof.
  intros F. revert pos. induction F as [|m r [T G] F IH]; [congruence|]. intros pos _.
  destruct (m_info m) as [i|] eqn:E; [|congruence]. destruct r as [|m2 r].
  - exists i. simpl. unfold last_info. simpl. rewrite E. auto.
  - destruct (IH (rend (i_span i))) as (z & Z1 & Z2 & Z3 & Z4); [discriminate|].
    exists z. change (last (m :: m2 :: r) (failed ENone)) with (last (m2 :: r) (failed ENone)).
    split; auto. split; [|split].
    + change (infos (m :: m2 :: r)) with (match m_info m with Some i => i :: infos (m2 :: r) | None => infos (m2 :: r) end).
      now rewrite E.
    + unfold last_info in *. change (rev (m :: m2 :: r)) with (rev (m2 :: r) ++ [m]).
      clear - Z3. induction (rev (m2 :: r)) as [|x l IHl]; simpl in *; [discriminate|].
      destruct (m_info x); auto.
    + simpl. auto.
Qed.

Lemma ms_range_good ms pos : good_ms ms -> in_order pos (infos ms) ->
  ms_range ms = Val (Some (mkRange (first_start (infos ms)) (last_end pos (infos ms)))).
Proof.
  intros [NE F] O. destruct (last_info_ok ms pos F NE) as (z & Z1 & Z2 & Z3 & Z4).
  assert (G : Forall (fun m => m_is_ok m = true) ms).
  { eapply Forall_impl; [|exact F]. intros a; apply good_m_ok. }
  destruct ms as [|m [|m2 r]]; [congruence| |].
  - inversion F as [|? ? [T I] _]; subst. simpl in *. destruct (m_info m) as [i|] eqn:E; [|congruence].
    rewrite (good_m_ok m) by (split; congruence). injection Z1 as ->. simpl in *. destruct (i_span z); auto.
  - assert (L : last (m :: m2 :: r) m = last (m :: m2 :: r) (failed ENone)).
    { clear. revert m2. induction r as [|x r IH]; intros; auto. simpl in *. apply IH. }
    unfold ms_range. rewrite L, Z1.
    inversion F as [|? ? [T I] _]; subst. destruct (m_info m) as [i|] eqn:E; [|congruence].
    rewrite (good_m_ok m) by (split; congruence).
    rewrite (proj1 (Forall_forall _ _) G _ Z4).
    assert (O' := O). change (infos (m :: m2 :: r)) with (match m_info m with Some i => i :: infos (m2 :: r) | None => infos (m2 :: r) end) in *.
    rewrite E in *. simpl first_start. destruct O' as [? O']. fold (in_order (rend (i_span i)) (infos (m2 :: r))) in O'. apply in_order_le in O'.
    change (rend (i_span z) = last_end (rend (i_span i)) (infos (m2 :: r))) in Z2. rewrite Z2. unfold range_new.
    replace (rstart (i_span i) <=? last_end (rend (i_span i)) (infos (m2 :: r))) with true
      by (symmetry; apply Nat.leb_le; lia).
    reflexivity.
Qed.

(** * Lists of results *)
Definition infoss (mss : list matches) : list minfo := concat (map infos mss).
Lemma infoss_app a c : infoss (a ++ c) = infoss a ++ infoss c.
Proof. unfold infoss. now rewrite map_app, concat_app. Qed.
Lemma ranges_good mss : forall pos, Forall good_ms mss -> in_order pos (infoss mss) ->
  exists rs, ranges mss = Val rs /\ (mss <> [] -> rs <> []) /\
    (forall r l, rs = r :: l ->
      fold_left (fun a x => Nat.max a (rend x)) l (rend r) = last_end pos (infoss mss) /\
      fold_left (fun a x => Nat.min a (rstart x)) l (rstart r) = first_start (infoss mss)) /\
    Forall (fun r => pos <= rstart r <= rend r) rs.
Proof.
  induction mss as [|ms r IH]; intros pos F O.
  - exists []. simpl. splits; auto; congruence.
  - inversion F as [|? ? G F']; subst. unfold infoss in *. simpl in O |- *.
    apply in_order_app in O as [O1 O2]. rewrite (ms_range_good ms pos G O1). simpl.
    destruct (IH _ F' O2) as (rs & -> & NE & V & B). simpl. eexists. split; [reflexivity|].
    assert (NI := good_infos _ G). pose proof (in_order_first _ _ O1 NI) as FI.
    assert (FS : first_start (infos ms ++ concat (map infos r)) = first_start (infos ms)).
    { destruct (infos ms); [congruence|reflexivity]. }
    splits; try congruence.
    + intros r0 l [= <- <-]. simpl. rewrite last_end_app, FS. destruct rs as [|r1 l1].
      * assert (r = []) by (destruct r; auto; exfalso; apply NE; congruence). subst r. simpl. auto.
      * destruct (V _ _ eq_refl) as [V1 V2].
        assert (K1 : forall l a c, fold_left (fun a x => Nat.max a (rend x)) l (Nat.max a c) = Nat.max a (fold_left (fun a x => Nat.max a (rend x)) l c)).
        { clear. induction l; simpl; intros; auto. rewrite <- IHl. f_equal. lia. }
        assert (K2 : forall l a c, fold_left (fun a x => Nat.min a (rstart x)) l (Nat.min a c) = Nat.min a (fold_left (fun a x => Nat.min a (rstart x)) l c)).
        { clear. induction l; simpl; intros; auto. rewrite <- IHl. f_equal. lia. }
        simpl. rewrite K1, K2, V1, V2. apply in_order_le in O2.
        split; [lia|]. 
        assert (last_end pos (infos ms) <= first_start (concat (map infos r))); [|lia].
        inversion B; subst. 
        clear - V2 B. rewrite <- V2. clear V2. inversion B as [|? ? H H']; subst. destruct H as [H _]. clear B.
        revert H. generalize (rstart r1). revert H'. induction l1 as [|x l IH]; simpl; intros; auto.
        inversion H'; subst. apply IH; auto. lia.
    + constructor; [simpl; lia|]. eapply Forall_impl; [|exact B]. simpl. intros; lia.
Qed.
Lemma max_end_good mss pos : Forall good_ms mss -> mss <> [] -> in_order pos (infoss mss) ->
  max_end mss = Val (last_end pos (infoss mss)).
Proof.
  intros F NE O. destruct (ranges_good mss pos F O) as (rs & R & N & V & _). unfold max_end. rewrite R. simpl.
  destruct rs as [|r l]; [exfalso; apply N; auto|]. destruct (V _ _ eq_refl) as [-> _]. auto.
Qed.
Lemma min_start_good mss pos : Forall good_ms mss -> mss <> [] -> in_order pos (infoss mss) ->
  min_start mss = Val (first_start (infoss mss)).
Proof.
  intros F NE O. destruct (ranges_good mss pos F O) as (rs & R & N & V & _). unfold min_start. rewrite R. simpl.
  destruct rs as [|r l]; [exfalso; apply N; auto|]. destruct (V _ _ eq_refl) as [_ ->]. auto.
Qed.
Lemma infoss_nonempty mss : Forall good_ms mss -> mss <> [] -> infoss mss <> [].
Proof.
  intros F NE. destruct F as [|ms r G F]; [congruence|]. unfold infoss. simpl. apply good_infos in G.
  destruct (infos ms); simpl; congruence.
Qed.

(** * One block *)
(** A block ends at the end of the input, or at the line feed before a non-empty line. *)
Definition block_end_ok (b : bytes) (e : nat) : Prop :=
  e = length b \/ (byte_at b e LF /\ exists x, byte_at b (e + 1) x /\ x <> LF).

Section Block.
Context {L : lang} (LO : lang_ok L).
Variables (b : bytes) (E : nat).
Hypothesis BE : block_end_ok b E.

Lemma E_len : E <= length b.
Proof. destruct BE as [->|[H _]]; auto. unfold byte_at in H. apply Nat.lt_le_incl. apply nth_error_Some. congruence. Qed.

Lemma eol_in pos : pos <= E -> eol_of b pos <= E.
Proof.
  intros H. pose proof E_len. destruct (eol_of_ok b pos) as (R & N & _); [lia|].
  destruct BE as [->|[B _]]; [lia|]. destruct (Nat.le_gt_cases (eol_of b pos) E); auto.
  exfalso. apply (N E); auto.
Qed.

Definition st_ok (s : state L) : Prop :=
  cursor_ok b (s_cur s) /\ c_crlf (s_cur s) = false /\ c_end (s_cur s) = E.
Definition pos_of (s : state L) : nat := c_start (s_cur s).
Lemma st_pos s : st_ok s -> pos_of s <= E.
Proof. intros ((_ & ? & _) & _ & <-). unfold pos_of. lia. Qed.
Lemma st_buf s : st_ok s -> c_buf (s_cur s) = b.
Proof. intros ((? & _) & _). auto. Qed.
Lemma st_eol s : st_ok s -> c_eol (s_cur s) = eol_of b (pos_of s).
Proof.
  intros ST. pose proof (st_pos s ST) as P. destruct ST as ((_ & ? & i & I & X) & _ & C).
  pose proof (eol_in _ P). unfold pos_of in *. rewrite (eol_of_eq _ _ _ I) in *. unfold end_of_line in X. lia.
Qed.

Lemma move_start_ok s n : st_ok s ->
  exists s', move_start s n = Val s' /\ st_ok s' /\ pos_of s' = Nat.min n E /\ s_env s' = s_env s.
Proof.
  intros (K & C & X). destruct (set_start_ok b (s_cur s) n K C) as (c' & H & K' & C' & X' & P).
  unfold move_start. rewrite H. simpl. eexists; split; [reflexivity|]. simpl. splits; auto.
  - split; auto. split; auto. simpl. congruence.
  - unfold pos_of. simpl. congruence.
Qed.

Definition pm_run (p : pat L) (s e : nat) (en : env L) : option (minfo * env L) :=
  match pm p b (mkRange s e) en with
  | Val (m, en') => match m_ty m, m_info m with Good, Some i => Some (i, en') | _, _ => None end
  | _ => None
  end.
Definition rule_run (r : rule L) (pos : nat) (en : env L) : option (minfo * env L) :=
  match r with
  | RPlain p => pm_run p pos E en
  | RNext p => if E <=? next_of b pos then None else pm_run p (next_of b pos) (eol_of b (next_of b pos)) en
  | RSame p => match pm_run p pos (eol_of b pos) en with
               | Some (i, en') => if rstart (i_span i) <? eol_of b pos then Some (i, en') else None
               | None => None
               end
  | REmpty =>
      if ((eol_of b pos <=? pos) && (eol_of b (next_of b pos) <=? next_of b pos))%bool
      then Some (mkInfo (mkRange (next_of b pos) (next_of b pos)) 0 0, en) else None
  end.

Lemma match_mut_run p s e st : st_ok st -> s <= e <= length b ->
  match pm_run p s e (s_env st) with
  | Some (i, en') => exists m, match_mut p (mkRange s e) st = Val (m, mkState (s_cur st) en') /\
      m_ty m = Good /\ m_info m = Some i /\ s <= rstart (i_span i) <= rend (i_span i) /\ rend (i_span i) <= e
  | None => exists m er, match_mut p (mkRange s e) st = Val (m, st) /\ m_ty m = Failed er /\ labelled er = true
  end.
Proof.
  intros ST H. destruct (ok_pm L LO p b s e (s_env st) H) as (m & en' & M & G).
  unfold pm_run, match_mut, buf. rewrite (st_buf _ ST), M. simpl.
  destruct G as [(T & i & I & R)|(er & T & F)].
  - rewrite T, I. exists m. unfold m_is_ok. rewrite T. simpl. splits; auto; simpl in R; lia.
  - rewrite T. exists m, er. unfold m_is_ok. rewrite T. simpl. auto.
Qed.

Lemma next_of_le pos : pos <= length b -> pos <= next_of b pos <= length b.
Proof. intros H. unfold next_of. destruct (eol_of_ok b pos H) as [? _]. destruct (Nat.ltb_spec (eol_of b pos) (length b)); lia. Qed.

(** What applying a rule does. *)
Lemma apply_rule_run r s : st_ok s ->
  match rule_run r (pos_of s) (s_env s) with
  | Some (i, en') => exists m s', apply_rule r s = Val ([m], s') /\ m_ty m = Good /\ m_info m = Some i /\
      st_ok s' /\ pos_of s' = rend (i_span i) /\ s_env s' = en' /\
      pos_of s <= rstart (i_span i) <= rend (i_span i) /\ rend (i_span i) <= E
  | None => apply_rule r s = Panic \/
      exists m er s', apply_rule r s = Val ([m], s') /\ m_ty m = Failed er /\ labelled er = true /\
        s_cur s' = s_cur s
  end.
Proof.
  intros ST. pose proof (st_pos s ST) as P. pose proof E_len as EL. pose proof (st_buf s ST) as B.
  assert (CR : c_crlf (s_cur s) = false) by apply ST.
  destruct r as [p|p|p|]; simpl rule_run; simpl apply_rule.
  - unfold apply_plain, search_block. replace (c_end (s_cur s)) with E by (symmetry; apply ST).
    change (c_start (s_cur s)) with (pos_of s).
    rewrite search_range_ok by (rewrite B; lia). simpl.
    pose proof (match_mut_run p (pos_of s) E s ST ltac:(lia)) as M. destruct (pm_run _ _ _ _) as [[i en']|].
    + destruct M as (m & -> & T & I & R). simpl. unfold advance. rewrite I. unfold m_is_ok. rewrite T. simpl.
      destruct (move_start_ok (mkState (s_cur s) en') (rend (i_span i)) ST) as (s' & -> & ST' & P' & E').
      simpl. exists m, s'. splits; auto; lia.
    + destruct M as (m & er & -> & T & F). right. simpl. unfold advance, m_is_ok. rewrite T. simpl.
      exists m, er, s. destruct (m_info m); simpl; auto.
  - unfold apply_next. rewrite (start_of_next_line_ok b) by (auto; unfold pos_of in P; lia). simpl.
    change (c_start (s_cur s)) with (pos_of s). pose proof (next_of_le (pos_of s) ltac:(lia)) as NL.
    destruct (next_newline_from_ok b (s_cur s) (next_of b (pos_of s)) B CR ltac:(lia)) as (x & -> & X1 & X2). simpl.
    replace (c_end (s_cur s)) with E by (symmetry; apply ST).
    destruct (Nat.leb_spec E (next_of b (pos_of s))).
    + destruct (Nat.eq_dec E (next_of b (pos_of s))).
      * right. rewrite search_range_ok by (rewrite B; lia). simpl. exists (failed ENone), ENone, s. auto.
      * left. unfold search_range, bounds_of.
        destruct (range_from_bounds _ _ _) eqn:RB; auto. apply range_from_bounds_spec in RB as (B1 & B2 & B3 & _).
        pose proof (begins_unique _ _ _ _ B1 (begins_incl _ _)). pose proof (stops_unique _ _ _ _ B2 (stops_excl _ _)). lia.
    + pose proof (eol_in (next_of b (pos_of s)) ltac:(lia)).
      assert (U : unwrap_or x E = eol_of b (next_of b (pos_of s))).
      { destruct X1 as [X1|X1]; rewrite X1 in *; auto. simpl in X2 |- *. lia. }
      rewrite U. destruct (eol_of_ok b (next_of b (pos_of s)) ltac:(lia)) as [? _].
      rewrite search_range_ok by (rewrite B; lia). simpl.
      pose proof (match_mut_run p (next_of b (pos_of s)) (eol_of b (next_of b (pos_of s))) s ST ltac:(lia)) as M.
      destruct (pm_run _ _ _ _) as [[i en']|].
      * destruct M as (m & -> & T & I & R). simpl. unfold advance. rewrite I. unfold m_is_ok. rewrite T. simpl.
        destruct (move_start_ok (mkState (s_cur s) en') (rend (i_span i)) ST) as (s' & -> & ST' & P' & E').
        simpl. exists m, s'. splits; auto; lia.
      * destruct M as (m & er & -> & T & F). right. simpl. unfold advance, m_is_ok. rewrite T. simpl.
        exists m, er, s. destruct (m_info m); simpl; auto.
  - unfold apply_same, search_line. rewrite (st_eol s ST). change (c_start (s_cur s)) with (pos_of s).
    pose proof (eol_in _ P). destruct (eol_of_ok b (pos_of s) ltac:(lia)) as [? _].
    rewrite search_range_ok by (rewrite B; lia). simpl.
    pose proof (match_mut_run p (pos_of s) (eol_of b (pos_of s)) s ST ltac:(lia)) as M.
    destruct (pm_run _ _ _ _) as [[i en']|].
    + destruct M as (m & -> & T & I & R). simpl. rewrite I. unfold m_is_ok. rewrite T. simpl.
      unfold end_of_line. rewrite (st_eol s ST).
      destruct (Nat.ltb_spec (rstart (i_span i)) (eol_of b (pos_of s))); simpl; [|left; reflexivity].
      destruct (move_start_ok (mkState (s_cur s) en') (rend (i_span i)) ST) as (s' & -> & ST' & P' & E').
      simpl. exists m, s'. splits; auto; lia.
    + destruct M as (m & er & -> & T & F). right. simpl. unfold m_is_ok. rewrite T. simpl.
      destruct (m_info m); simpl; [exists m, er, s; auto|].
      unfold search_block. replace (c_end (s_cur s)) with E by (symmetry; apply ST).
      change (c_start (s_cur s)) with (pos_of s).
      rewrite search_range_ok by (rewrite B; lia). simpl.
      pose proof (match_mut_run p (pos_of s) E s ST ltac:(lia)) as M. destruct (pm_run _ _ _ _) as [[i en']|].
      * destruct M as (m' & -> & T' & I & R). simpl. rewrite I. 
        eexists _, EWrongLine, _. split; [reflexivity|]. auto.
      * destruct M as (m' & er' & -> & T' & F'). simpl. destruct (m_info m').
        -- eexists _, EWrongLine, _. split; [reflexivity|]. auto.
        -- exists m, er, s. auto.
  - unfold apply_empty. rewrite (start_of_next_line_ok b) by (auto; unfold pos_of in P; lia). simpl.
    change (c_start (s_cur s)) with (pos_of s). pose proof (next_of_le (pos_of s) ltac:(lia)) as NL.
    destruct (next_newline_from_ok b (s_cur s) (next_of b (pos_of s)) B CR ltac:(lia)) as (x & -> & X1 & X2). simpl.
    unfold end_of_file. rewrite B, X2.
    destruct (at_eol_ok b (s_cur s) B CR) as (y & -> & Y). { unfold pos_of in P. lia. } simpl.
    change (c_start (s_cur s)) with (pos_of s) in Y.
    destruct (eol_of_ok b (pos_of s) ltac:(lia)) as (L1 & L2 & L3).
    assert (Y' : y = (eol_of b (pos_of s) <=? pos_of s)).
    { destruct (Nat.leb_spec (eol_of b (pos_of s)) (pos_of s)).
      - apply Y. replace (eol_of b (pos_of s)) with (pos_of s) in L3 by lia. auto.
      - destruct y; auto. destruct (proj1 Y eq_refl) as [?|HB]; [lia|]. exfalso. apply (L2 (pos_of s)); auto. }
    subst y. destruct (eol_of_ok b (next_of b (pos_of s)) ltac:(lia)) as (M1 & M2 & M3).
    destruct (Nat.leb_spec (eol_of b (pos_of s)) (pos_of s)) as [Z1|Z1]; simpl.
    2:{ right. rewrite search_range_ok by (rewrite B; lia). simpl. eexists _, ENone, s. split; [reflexivity|]. auto. }
    destruct (Nat.leb_spec (eol_of b (next_of b (pos_of s))) (next_of b (pos_of s))) as [Z2|Z2]; simpl.
    2:{ right. rewrite search_range_ok by (rewrite B; lia). simpl. eexists _, ENone, s. split; [reflexivity|]. auto. }
    assert (Q : eol_of b (next_of b (pos_of s)) = next_of b (pos_of s)) by lia. rewrite Q.
    destruct (move_start_ok s (next_of b (pos_of s)) ST) as (s' & -> & ST' & P' & E'). simpl.
    eexists _, s'. split; [reflexivity|].
    assert (next_of b (pos_of s) <= E).
    { assert (eol_of b (pos_of s) = pos_of s) by lia. unfold next_of in *. rewrite H in *.
      destruct (Nat.ltb_spec (pos_of s) (length b)).
      - destruct (Nat.eq_dec (pos_of s) E) as [Ep|]; [|lia].
        destruct BE as [X0|X0]; [lia|]. destruct X0 as (_ & w & W & NW). rewrite Ep in *.
        destruct M3 as [M3|M3].
        + rewrite Q in M3. apply nth_error_None in M3 || (unfold byte_at in W; assert (E + 1 < length b) by (apply nth_error_Some; congruence); lia).
        + rewrite Q in M3. unfold byte_at in *. congruence.
      - destruct BE as [->|[W _]]; [lia|]. unfold byte_at in W. assert (E < length b) by (apply nth_error_Some; congruence). lia. }
    splits; auto; simpl; lia.
Qed.

(** * Groups: a functional reading of what a successful run computes *)
Fixpoint rules_run (rs : list (rule L)) (pos : nat) (en : env L) : option (list minfo * env L) :=
  match rs with
  | [] => Some ([], en)
  | r :: rs' =>
      match rule_run r pos en with
      | Some (i, en1) => match rules_run rs' (rend (i_span i)) en1 with
                         | Some (is, en2) => Some (i :: is, en2) | None => None end
      | None => None
      end
  end.
Definition dag_run (ds : list (pat L)) (pos : nat) (en : env L) : option (list minfo * env L) :=
  match dm ds b (mkRange pos E) en with
  | Val (ms, en', _) => if ms_ok ms then Some (infos ms, en') else None
  | _ => None
  end.
Definition absentb (ps : list (pat L)) (s e : nat) (en : env L) : bool :=
  match nm ps b (mkRange s e) en with Val (m, _) => negb (m_is_ok m) | _ => false end.
Fixpoint grun (g : group L) (pos : nat) (en : env L) : option (list minfo * env L) :=
  match g with
  | GNever ps => None
  | GOrdered rs => rules_run rs pos en
  | GRepeated r n => rules_run (repeat r n) pos en
  | GUnordered ds => dag_run ds pos en
  | GBounded ds g' =>
      match dag_run ds pos en with
      | Some (o1, en1) =>
          match grun g' (last_end pos o1) en1 with
          | Some (o2, en2) => if last_end pos o1 <? first_start o2 then Some (o1 ++ o2, en2) else None
          | None => None
          end
      | None => None
      end
  | GTree t => trun t pos en
  end
with trun (t : tree L) (pos : nat) (en : env L) : option (list minfo * env L) :=
  match t with
  | TAll g => grun g pos en
  | TAround root l r =>
      match trun l pos en with
      | Some (o1, en1) =>
          match trun r (last_end pos o1) en1 with
          | Some (o2, en2) => if absentb root (last_end pos o1) (first_start o2) en2 then Some (o1 ++ o2, en2) else None
          | None => None
          end
      | None => None
      end
  | TBefore root l =>
      match trun l pos en with
      | Some (o1, en1) => if absentb root (last_end pos o1) E en1 then Some (o1, en1) else None
      | None => None
      end
  | TAfter root r =>
      match trun r pos en with
      | Some (o2, en2) => if absentb root pos (first_start o2) en2 then Some (o2, en2) else None
      | None => None
      end
  end.

(** Groups the compiler builds, other than a lone CHECK-NOT. *)
Fixpoint wf_group (g : group L) : Prop :=
  match g with
  | GNever ps => False
  | GUnordered ds => ds <> []
  | GBounded ds g' => ds <> [] /\ wf_group g'
  | GOrdered rs => rs <> []
  | GRepeated r n => n <> 0
  | GTree t => wf_tree t
  end
with wf_tree (t : tree L) : Prop :=
  match t with
  | TAll g => wf_group g
  | TAround root l r => wf_tree l /\ wf_tree r
  | TBefore root l => wf_tree l
  | TAfter root r => wf_tree r
  end.

Definition clean (x : gres) (t : test_result) : Prop :=
  t_errors t = [] /\
  match x with GOk mss | GErr mss => Forall (fun ms => ms_ok ms = true) mss | GFail _ => False end.

Lemma check_not_spec ps lo hi s : st_ok s -> lo <= hi <= length b ->
  (absentb ps lo hi (s_env s) = true -> check_not ps (mkRange lo hi) s = Val (inr tt, s)) /\
  (absentb ps lo hi (s_env s) = false -> exists i, check_not ps (mkRange lo hi) s = Val (inl i, s)).
Proof.
  intros ST H. destruct (ok_nm L LO ps b lo hi (s_env s) H) as (m & M & G).
  unfold absentb, check_not, buf. rewrite (st_buf _ ST), M. simpl. destruct s as [c en]. simpl in *.
  split; intros A.
  - apply negb_true_iff in A. rewrite A. destruct (m_info m); simpl; auto.
  - apply negb_false_iff in A. destruct (G A) as (_ & i & I & _). rewrite I, A. eauto.
Qed.

Lemma tree_not_spec ps lo hi t s : st_ok s -> lo <= hi <= length b ->
  if absentb ps lo hi (s_env s) then tree_not ps (mkRange lo hi) t s = Val ([], t_pass t (length ps), s)
  else tree_not ps (mkRange lo hi) t s = Val ([[failed EExcluded]], t, s).
Proof.
  intros ST H. destruct (check_not_spec ps lo hi s ST H) as [A B]. unfold tree_not.
  destruct (absentb _ _ _ _); [now rewrite A|]. destruct B as [i ->]; auto.
Qed.

Lemma tree_not_errors (ps : list (pat L)) r t s x t' s' : tree_not ps r t s = Val (x, t', s') -> t_errors t' = t_errors t.
Proof.
  unfold tree_not. destruct (check_not ps r s) as [[[i|] s1]| |]; intros H; try discriminate; inj H; auto.
Qed.

(** Errors are only ever added. *)
Definition grows (t t' : test_result) : Prop := exists es, t_errors t' = t_errors t ++ es.
Lemma grows_refl t : grows t t. Proof. exists []. now rewrite app_nil_r. Qed.
Lemma grows_trans a c d : grows a c -> grows c d -> grows a d.
Proof. intros [x X] [y Y]. exists (x ++ y). rewrite Y, X. now rewrite app_assoc. Qed.
Lemma grows_fail t e : grows t (t_fail t e). Proof. exists [e]. reflexivity. Qed.
Lemma grows_pass t n : grows t (t_pass t n). Proof. exists []. simpl. now rewrite app_nil_r. Qed.
Lemma grows_eq t t' : t_errors t' = t_errors t -> grows t t'. Proof. intros H. exists []. rewrite app_nil_r. exact H. Qed.
Lemma grows_nil t t' : grows t t' -> t_errors t' = [] -> t_errors t = [].
Proof. intros [es H] N. rewrite N in H. symmetry in H. now apply app_eq_nil in H as [? _]. Qed.
Hint Resolve grows_refl grows_fail grows_pass : core.
Ltac chain := repeat match goal with
  | H : grows ?a ?c |- grows ?a _ => eapply grows_trans; [exact H|]; clear H end;
  solve [ auto | eapply grows_trans; [apply grows_fail|]; auto
        | eapply grows_trans; [apply grows_fail|eassumption] ].

Lemma bind_val {A B} (x : res A) (f : A -> res B) y : bind x f = Val y -> exists a, x = Val a /\ f a = Val y.
Proof. destruct x; simpl; intros H; try discriminate. eauto. Qed.

Lemma check_ordered_grows (rs : list (rule L)) : forall mss t s x t' s', check_ordered rs mss t s = Val (x, t', s') -> grows t t'.
Proof.
  induction rs as [|r rs IH]; intros mss t s x t' s' H; simpl in H.
  - apply bind_val in H as (a & _ & H). inj H. auto.
  - destruct (apply_rule r s) as [[ms s1]| |]; try discriminate.
    + destruct (ms_ok ms); [eauto|]. inj H. auto.
    + apply IH in H. chain.
Qed.
Lemma check_repeated_grows (r : rule L) n : forall mss t s x t' s', check_repeated r n mss t s = Val (x, t', s') -> grows t t'.
Proof.
  induction n as [|n IH]; intros mss t s x t' s' H; simpl in H.
  - inj H. auto.
  - destruct (apply_rule r s) as [[ms s1]| |]; try discriminate.
    + destruct (existsb _ ms); [inj H; auto|]. eauto.
    + inj H. auto.
Qed.

Scheme group_mind := Induction for group Sort Prop with tree_mind := Induction for tree Sort Prop.
Combined Scheme group_tree_ind from group_mind, tree_mind.

Lemma check_grows : (forall (g : group L) t s x t' s', check_group g t s = Val (x, t', s') -> grows t t') /\
  (forall (tr : tree L) t s x t' s', check_tree tr t s = Val (x, t', s') -> grows t t').
Proof.
  apply group_tree_ind.
  - intros ps t s x t' s' H. simpl in H. apply bind_val in H as (r & _ & H).
    destruct (check_not ps r s) as [[[i|] s1]| |]; try discriminate; inj H; auto.
  - intros ds t s x t' s' H. simpl in H. destruct (apply_dag ds s) as [[ms s1]| |]; try discriminate.
    + apply bind_val in H as (o & _ & H). inj H. auto.
    + inj H. auto.
  - intros ds g IH t s x t' s' H. simpl in H. destruct (apply_dag ds s) as [[ms s1]| |]; try discriminate.
    + apply bind_val in H as ([[y t1] s2] & HG & H). apply IH in HG. destruct y as [rm|rm|e].
      * destruct rm as [|r0 rm]; [discriminate|]. apply bind_val in H as (o & _ & H).
        apply bind_val in H as (rr & _ & H). apply bind_val in H as (lo & _ & H). inj H. auto.
      * apply bind_val in H as (o & _ & H). inj H. auto.
      * apply bind_val in H as (o & _ & H). inj H. chain.
    + apply bind_val in H as ([[y t1] s2] & HG & H). apply IH in HG. destruct y as [rm|rm|e].
      * destruct rm as [|r0 rm]; [discriminate|]. apply bind_val in H as (o & _ & H).
        apply bind_val in H as (rr & _ & H). inj H. chain.
      * inj H. chain.
      * inj H. chain.
  - intros rs t s x t' s' H. eapply check_ordered_grows; exact H.
  - intros r n t s x t' s' H. eapply check_repeated_grows; exact H.
  - intros t0 IH t s x t' s' H. simpl in H. eauto.
  - intros g IH t s x t' s' H. simpl in H. eauto.
  - intros root l IHl r IHr t s x t' s' H. simpl in H.
    apply bind_val in H as ([[gl t1] s1] & HL & H). unfold expect_tree in HL at 1.
    apply bind_val in HL as ([[gl0 t10] s10] & HL & HL'). 
    assert (gl0 = gl /\ t10 = t1 /\ s10 = s1) by (destruct gl0; try discriminate; inj HL'; auto).
    destruct H0 as (-> & -> & ->). clear HL'. apply IHl in HL.
    assert (R : forall f, bind (expect_tree (check_tree r t1 s1)) f = Val (x, t', s') ->
       exists gr t2 s2, f (gr, t2, s2) = Val (x, t', s') /\ grows t1 t2).
    { intros f HR. apply bind_val in HR as ([[gr t2] s2] & HR & H'). unfold expect_tree in HR.
      apply bind_val in HR as ([[gr0 t20] s20] & HR & HR').
      assert (gr0 = gr /\ t20 = t2 /\ s20 = s2) by (destruct gr0; try discriminate; inj HR'; auto).
      destruct H0 as (-> & -> & ->). apply IHr in HR. eauto. }
    destruct gl as [lm|lm|e]; [| |discriminate].
    + apply bind_val in H as (u & _ & H). apply bind_val in H as (le & _ & H).
      apply R in H as (gr & t2 & s2 & H & G2). destruct gr as [rm|rm|e]; [| |discriminate].
      * apply bind_val in H as (u2 & _ & H). apply bind_val in H as (rs & _ & H).
        apply bind_val in H as (ex & _ & H). apply bind_val in H as ([[extra t3] s3] & HN & H). inj H.
        apply tree_not_errors in HN. apply grows_eq in HN. chain.
      * inj H. chain.
    + apply R in H as (gr & t2 & s2 & H & G2). destruct gr as [rm|rm|e]; [| |discriminate].
      * apply bind_val in H as (u2 & _ & H). apply bind_val in H as (rs & _ & H).
        apply bind_val in H as (ex & _ & H). apply bind_val in H as ([[extra t3] s3] & HN & H). inj H.
        apply tree_not_errors in HN. apply grows_eq in HN. chain.
      * inj H. chain.
  - intros root l IHl t s x t' s' H. simpl in H.
    apply bind_val in H as ([[gl t1] s1] & HL & H). unfold expect_tree in HL at 1.
    apply bind_val in HL as ([[gl0 t10] s10] & HL & HL'). 
    assert (gl0 = gl /\ t10 = t1 /\ s10 = s1) by (destruct gl0; try discriminate; inj HL'; auto).
    destruct H0 as (-> & -> & ->). clear HL'. apply IHl in HL.
    destruct gl as [lm|lm|e]; [| |discriminate].
    + apply bind_val in H as (u & _ & H). 
      apply bind_val in H as (ex & _ & H). apply bind_val in H as ([[extra t3] s3] & HN & H). inj H.
      apply tree_not_errors in HN. apply grows_eq in HN. chain.
    + apply bind_val in H as (ex & _ & H). apply bind_val in H as ([[extra t3] s3] & HN & H). inj H.
      apply tree_not_errors in HN. apply grows_eq in HN. chain.
  - intros root r IHr t s x t' s' H. simpl in H.
    apply bind_val in H as ([[gl t1] s1] & HL & H). unfold expect_tree in HL at 1.
    apply bind_val in HL as ([[gl0 t10] s10] & HL & HL'). 
    assert (gl0 = gl /\ t10 = t1 /\ s10 = s1) by (destruct gl0; try discriminate; inj HL'; auto).
    destruct H0 as (-> & -> & ->). clear HL'. apply IHr in HL.
    destruct gl as [lm|lm|e]; [| |discriminate].
    + apply bind_val in H as (u & _ & H). apply bind_val in H as (rs & _ & H). 
      apply bind_val in H as (ex & _ & H). apply bind_val in H as ([[extra t3] s3] & HN & H). inj H.
      apply tree_not_errors in HN. apply grows_eq in HN. chain.
    + inj H. chain.
Qed.

Definition good1 (ms : matches) : Prop := exists m, ms = [m] /\ good_m m.
Lemma good1_ms ms : good1 ms -> good_ms ms.
Proof. intros (m & -> & G). split; [discriminate|]. auto. Qed.
Lemma good1_all mss : Forall good1 mss -> Forall good_ms mss.
Proof. intros F. eapply Forall_impl; [|exact F]. apply good1_ms. Qed.
Lemma good_ms_ok ms : good_ms ms -> ms_ok ms = true.
Proof.
  intros [_ F]. unfold ms_ok. apply forallb_forall. intros m Hm. apply good_m_ok.
  now apply (proj1 (Forall_forall _ _) F).
Qed.

Lemma check_ordered_run (rs : list (rule L)) : forall mss t s, st_ok s -> Forall good1 mss -> rs ++ repeat REmpty (length mss) <> [] ->
  match rules_run rs (pos_of s) (s_env s) with
  | Some (out, en') => exists mss' s', check_ordered rs mss t s = Val (GOk (mss ++ mss'), t, s') /\
      Forall good1 mss' /\ length mss' = length rs /\ infoss mss' = out /\ in_order (pos_of s) out /\
      st_ok s' /\ pos_of s' = last_end (pos_of s) out /\ s_env s' = en'
  | None => forall x t' s', check_ordered rs mss t s = Val (x, t', s') -> t_errors t' <> []
  end.
Proof.
  induction rs as [|r rs IH]; intros mss t s ST F NE; simpl rules_run.
  - exists [], s. simpl. rewrite app_nil_r. splits; auto.
    destruct F as [|ms l (m & -> & T & I) F]; [simpl in NE; congruence|].
    unfold ms_range. destruct (m_info m) eqn:E1; [|congruence]. rewrite (good_m_ok m) by (split; congruence). reflexivity.
  - pose proof (apply_rule_run r s ST) as A. destruct (rule_run r (pos_of s) (s_env s)) as [[i en1]|].
    + destruct A as (m & s1 & A & T & I & ST1 & P1 & E1 & R). cbn [check_ordered]. rewrite A.
      assert (G : good_m m) by (split; congruence).
      rewrite (good_ms_ok [m]) by (apply good1_ms; exists m; auto).
      assert (F1 : Forall good1 (mss ++ [[m]])).
      { apply Forall_app; split; auto. constructor; auto. exists m; auto. }
      specialize (IH (mss ++ [[m]]) t s1 ST1 F1). rewrite P1, E1 in IH.
      assert (NE1 : rs ++ repeat REmpty (length (mss ++ [[m]])) <> []).
      { rewrite app_length, Nat.add_comm. simpl. destruct rs; discriminate. }
      specialize (IH NE1). destruct (rules_run rs (rend (i_span i)) en1) as [[is en2]|]; [|exact IH].
      destruct IH as (mss' & s' & HC & F' & LN & IO & O & ST' & P' & E').
      exists ([m] :: mss'), s'. split; [etransitivity; [exact HC|now rewrite <- app_assoc]|]. splits; auto; simpl.
      * constructor; auto. exists m; auto.
      * congruence.
      * unfold infoss in *. simpl. rewrite I. simpl. congruence.
      * split; [lia|auto].
    + intros x t' s' H. simpl in H. destruct A as [A|(m & er & s1 & A & T & _)]; rewrite A in H; [discriminate|].
      simpl in H. unfold m_is_ok in H. rewrite T in H. simpl in H. inj H. simpl. destruct (t_errors t); discriminate.
Qed.

Lemma check_repeated_run (r : rule L) n : forall mss t s, st_ok s ->
  match rules_run (repeat r n) (pos_of s) (s_env s) with
  | Some (out, en') => exists mss' s', check_repeated r n mss t s = Val (GOk (mss ++ mss'), t, s') /\
      Forall good1 mss' /\ length mss' = n /\ infoss mss' = out /\ in_order (pos_of s) out /\
      st_ok s' /\ pos_of s' = last_end (pos_of s) out /\ s_env s' = en'
  | None => forall x t' s', check_repeated r n mss t s = Val (x, t', s') -> t_errors t' <> []
  end.
Proof.
  induction n as [|n IH]; intros mss t s ST; simpl rules_run.
  - exists [], s. simpl. rewrite app_nil_r. splits; auto.
  - pose proof (apply_rule_run r s ST) as A. destruct (rule_run r (pos_of s) (s_env s)) as [[i en1]|].
    + destruct A as (m & s1 & A & T & I & ST1 & P1 & E1 & R). cbn [check_repeated]. rewrite A. cbn [fold_left ms_push existsb].
      assert (G : good_m m) by (split; congruence). rewrite (good_m_ok m G), T. simpl.
      specialize (IH (mss ++ [[m]]) t s1 ST1). rewrite P1, E1 in IH.
      destruct (rules_run (repeat r n) (rend (i_span i)) en1) as [[is en2]|]; [|exact IH].
      destruct IH as (mss' & s' & HC & F' & LN & IO & O & ST' & P' & E').
      exists ([m] :: mss'), s'. split; [etransitivity; [exact HC|now rewrite <- app_assoc]|]. splits; auto; simpl.
      * constructor; auto. exists m; auto.
      * congruence.
      * unfold infoss in *. simpl. rewrite I. simpl. congruence.
      * split; [lia|auto].
    + intros x t' s' H. simpl in H. destruct A as [A|(m & er & s1 & A & T & LB & _)]; rewrite A in H; [discriminate|].
      simpl in H. rewrite T, LB in H. simpl in H. inj H. simpl. destruct (t_errors t); discriminate.
Qed.

Lemma apply_dag_run ds s : st_ok s -> ds <> [] ->
  match dag_run ds (pos_of s) (s_env s) with
  | Some (out, en') => exists ms s', apply_dag ds s = Val (ms, s') /\ good_ms ms /\ infos ms = out /\
      in_order (pos_of s) out /\ st_ok s' /\ pos_of s' = last_end (pos_of s) out /\ s_env s' = en'
  | None => forall ms s', apply_dag ds s = Val (ms, s') -> ms_ok ms = false
  end /\ apply_dag ds s <> Err.
Proof.
  intros ST NE. pose proof (st_pos s ST) as P. pose proof E_len as EL. pose proof (st_buf s ST) as B.
  destruct (ok_dm L LO ds b (pos_of s) E (s_env s)) as (ms & en' & pos & D & G); [lia|auto|].
  unfold dag_run, apply_dag, search_block. replace (c_end (s_cur s)) with E by (symmetry; apply ST).
  change (c_start (s_cur s)) with (pos_of s). rewrite search_range_ok by (rewrite B; lia).
  unfold buf. simpl. rewrite B, D. simpl.
  destruct (ms_ok ms) eqn:OK.
  - destruct (G eq_refl) as (NM & F & O & ->).
    destruct (set_start_ok b (s_cur s) (last_end (pos_of s) (infos ms))) as (c' & H & K' & C' & X' & P'); try apply ST.
    rewrite H. simpl. split; [|discriminate]. eexists _, _. split; [reflexivity|].
    assert (LE : last_end (pos_of s) (infos ms) <= E).
    { clear - F P. cut (forall q, q <= E -> last_end q (infos ms) <= E); [intros X; apply X; auto|]. induction F as [|m r (T & i & I & R) F IH]; simpl; auto.
      intros q Hq. rewrite I. simpl. apply IH. simpl in R. lia. }
    assert (GM : good_ms ms).
    { split; auto. eapply Forall_impl; [|exact F]. intros a (T & i & I & _). split; congruence. }
    splits; auto.
    + split; auto. split; auto. simpl. rewrite X'. apply ST.
    + unfold pos_of at 1. simpl. rewrite P'. replace (c_end (s_cur s)) with E by (symmetry; apply ST). lia.
  - split.
    + intros ms' s' H. apply bind_val in H as (c & _ & H). inj H. auto.
    + destruct pos as [n|]; simpl; [|discriminate].
      destruct (set_start_ok b (s_cur s) n) as (c' & H & _); try apply ST. rewrite H. discriminate.
Qed.

Lemma rules_run_nonempty rs pos en out en' : rs <> [] -> rules_run rs pos en = Some (out, en') -> out <> [].
Proof.
  destruct rs as [|r rs]; [congruence|]. simpl. intros _. destruct (rule_run r pos en) as [[i e1]|]; [|discriminate].
  destruct (rules_run _ _ _) as [[is e2]|]; intros H; [|discriminate]. inj H. discriminate.
Qed.

Lemma ms_ok_map_rewrite rr ms : ms_ok (map (rewrite_left rr) ms) = true -> ms_ok ms = true.
Proof.
  intros H. unfold ms_ok in *. rewrite forallb_forall in *. intros m Hm.
  specialize (H (rewrite_left rr m) (in_map _ _ _ Hm)). unfold m_is_ok, rewrite_left in *.
  destruct (m_info m); auto. destruct (_ || _)%bool; auto. destruct (m_ty m) as [| |e] eqn:T; auto. destruct e; simpl in H; rewrite ?T in H; discriminate.
Qed.
Lemma rewrite_touch rr ms pos : good_ms ms -> rr <= last_end pos (infos ms) ->
  ms_ok (map (rewrite_left rr) ms) = false.
Proof.
  intros [NE F] H. destruct (last_info_ok ms pos F NE) as (z & Z1 & Z2 & _ & Z4).
  destruct (ms_ok _) eqn:K; auto. unfold ms_ok in K. rewrite forallb_forall in K.
  specialize (K _ (in_map (rewrite_left rr) _ _ Z4)). unfold rewrite_left in K. rewrite Z1 in K.
  replace (rr <=? rend (i_span z)) with true in K by (symmetry; apply Nat.leb_le; lia).
  rewrite orb_true_r in K. destruct (proj1 (Forall_forall _ _) F _ Z4) as [T _]. rewrite T in K. discriminate.
Qed.

(** What a group, and a tree, does. *)
Definition group_ok (run : option (list minfo * env L)) (chk : test_result -> state L -> res (gres * test_result * state L))
  (s : state L) : Prop :=
  forall t,
  match run with
  | Some (out, en') => exists mss t' s', chk t s = Val (GOk mss, t', s') /\
      t_errors t' = t_errors t /\ t_matches t' = t_matches t /\
      Forall good_ms mss /\ mss <> [] /\ infoss mss = out /\ in_order (pos_of s) out /\
      st_ok s' /\ pos_of s' = last_end (pos_of s) out /\ s_env s' = en'
  | None => forall x t' s', chk t s = Val (x, t', s') -> ~ clean x t'
  end.

Lemma expect_val x y : expect_tree (L:=L) x = Val y -> x = Val y.
Proof. unfold expect_tree. intros H. apply bind_val in H as ([[g t] s] & -> & H). destruct g; auto; discriminate. Qed.

Lemma expect_ok x m t s : x = Val (GOk m, t, s) -> expect_tree (L:=L) x = Val (GOk m, t, s).
Proof. intros ->. reflexivity. Qed.

Lemma check_run :
  (forall g, wf_group g -> forall s, st_ok s -> group_ok (grun g (pos_of s) (s_env s)) (check_group g) s) /\
  (forall tr, wf_tree tr -> forall s, st_ok s -> group_ok (trun tr (pos_of s) (s_env s)) (check_tree tr) s).
Proof.
  pose proof E_len as EL. destruct check_grows as [GG GT].
  apply group_tree_ind.
  - intros ps [].
  - (* unordered *)
    intros ds W s ST t. simpl grun. cbn [check_group]. destruct (apply_dag_run ds s ST W) as [D NErr].
    destruct (dag_run ds (pos_of s) (s_env s)) as [[out en']|].
    + destruct D as (ms & s' & -> & G & I & O & ST' & P' & E'). subst out.
      rewrite (ms_range_good ms (pos_of s) G O). simpl. exists [ms], t, s'.
      unfold infoss. simpl. rewrite app_nil_r. splits; auto; discriminate.
    + intros x t' s' H C. destruct (apply_dag ds s) as [[ms s1]| |]; try discriminate; [|congruence].
      apply bind_val in H as (o & _ & H). specialize (D _ _ eq_refl). destruct C as [_ C].
      destruct o; inj H; inversion C; subst; congruence.
  - (* bounded *)
    intros ds g IH [W Wg] s ST t. simpl grun. cbn [check_group]. destruct (apply_dag_run ds s ST W) as [D NErr].
    destruct (dag_run ds (pos_of s) (s_env s)) as [[out en1]|].
    + destruct D as (ms & s1 & -> & G & I & O & ST1 & P1 & E1). specialize (IH Wg s1 ST1 t).
      rewrite P1, E1 in IH. destruct (grun g (last_end (pos_of s) out) en1) as [[o2 en2]|].
      * destruct IH as (mss & t' & s2 & H & TE & TM & FG & NE & IO & O2 & ST2 & P2 & E2). rewrite H.
        cbn [bind]. destruct mss as [|r0 rm]; [congruence|]. inversion FG as [|? ? G0 FG']; subst.
        unfold infoss in O2. simpl in O2. pose proof O2 as O2'. apply in_order_app in O2 as [O2a O2b].
        rewrite (ms_range_good r0 _ G0 O2a). cbn [bind unwrap].
        rewrite (ms_range_good ms (pos_of s) G O). cbn [bind]. cbn [rstart rend].
        assert (FS : first_start (infoss (r0 :: rm)) = first_start (infos r0)).
        { unfold infoss. simpl. pose proof (good_infos _ G0). destruct (infos r0); [congruence|auto]. }
        rewrite FS. pose proof (in_order_first _ _ O2a (good_infos _ G0)) as F0.
        pose proof (in_order_first _ _ O (good_infos _ G)) as F1.
        destruct (Nat.ltb_spec (last_end (pos_of s) (infos ms)) (first_start (infos r0))).
        -- replace (first_start (infos r0) <=? first_start (infos ms)) with false by (symmetry; apply Nat.leb_gt; lia).
           replace (first_start (infos r0) <=? last_end (pos_of s) (infos ms)) with false by (symmetry; apply Nat.leb_gt; lia).
           simpl orb. cbv iota. exists (ms :: r0 :: rm), t', s2. splits; auto; try discriminate.
           ++ unfold infoss. simpl. apply in_order_app. split; auto.
           ++ rewrite P2, last_end_app. auto.
        -- intros x t'' s'' H1 [_ C].
           replace (first_start (infos r0) <=? last_end (pos_of s) (infos ms)) with true in H1 by (symmetry; apply Nat.leb_le; lia).
           rewrite orb_true_r in H1. inj H1. inversion C as [|? ? C1 _]; subst.
           rewrite (rewrite_touch _ ms (pos_of s)) in C1; [discriminate|auto|lia].
      * intros x t' s' H C. apply bind_val in H as ([[y t1] s2] & HG & H). specialize (IH _ _ _ HG). apply IH.
        destruct y as [rm|rm|e].
        -- destruct rm as [|r0 rm]; [discriminate|]. apply bind_val in H as (o & _ & H).
           apply bind_val in H as (rr & _ & H). apply bind_val in H as (lo & _ & H). inj H.
           destruct C as [C1 C2]. split; auto. now inversion C2.
        -- apply bind_val in H as (o & _ & H). destruct o; inj H; destruct C as [C1 C2]; (split; [auto|now inversion C2]).
        -- apply bind_val in H as (o & _ & H). destruct C as [C1 _]. destruct o; inj H; simpl in C1; destruct (t_errors t1); discriminate.
    + intros x t' s' H C. destruct (apply_dag ds s) as [[ms s1]| |]; try discriminate; [|congruence].
      specialize (D _ _ eq_refl). apply bind_val in H as ([[y t1] s2] & HG & H). destruct C as [C1 C2].
      destruct y as [rm|rm|e].
      * destruct rm as [|r0 rm]; [discriminate|]. apply bind_val in H as (o & _ & H).
        apply bind_val in H as (rr & _ & H). apply bind_val in H as (lo & _ & H). inj H.
        inversion C2 as [|? ? C3 _]; subst. destruct lo as [lr|]; [|congruence].
        destruct (_ || _)%bool; [|congruence]. apply ms_ok_map_rewrite in C3. congruence.
      * apply bind_val in H as (o & _ & H). destruct o; inj H; inversion C2; congruence.
      * apply bind_val in H as (o & _ & H). destruct o; inj H; inversion C2; congruence.
  - (* ordered *)
    intros rs W s ST t. simpl grun. cbn [check_group].
    pose proof (check_ordered_run rs [] t s ST (Forall_nil _)) as D. simpl in D. rewrite app_nil_r in D. specialize (D W).
    destruct (rules_run rs (pos_of s) (s_env s)) as [[out en']|].
    + destruct D as (mss & s' & H & F & LN & IO & O & ST' & P' & E'). exists mss, t, s'. splits; auto using good1_all.
      intros ->. simpl in LN. destruct rs; [congruence|discriminate].
    + intros x t' s' H [C _]. apply D in H. auto.
  - (* repeated *)
    intros r n W s ST t. simpl grun. cbn [check_group].
    pose proof (check_repeated_run r n [] t s ST) as D.
    destruct (rules_run (repeat r n) (pos_of s) (s_env s)) as [[out en']|].
    + destruct D as (mss & s' & H & F & LN & IO & O & ST' & P' & E'). exists mss, t, s'. splits; auto using good1_all.
      intros ->. simpl in LN. congruence.
    + intros x t' s' H [C _]. apply D in H. auto.
  - intros tr IH W s ST t. exact (IH W s ST t).
  - intros g IH W s ST t. exact (IH W s ST t).
  - (* around *)
    intros root l IHl r IHr [Wl Wr] s ST t. simpl trun. cbn [check_tree].
    specialize (IHl Wl s ST t). destruct (trun l (pos_of s) (s_env s)) as [[o1 en1]|].
    + destruct IHl as (lm & t1 & s1 & H & TE & TM & FG & NE & IO & O1 & ST1 & P1 & E1).
      rewrite (expect_ok _ _ _ _ H). cbn [bind].
      replace (nonempty lm) with true by (destruct lm; [congruence|auto]). cbn [assert bind].
      rewrite (max_end_good lm (pos_of s)) by (auto; congruence). cbn [bind].
      specialize (IHr Wr s1 ST1 t1). rewrite P1, E1 in IHr. rewrite IO.
      destruct (trun r (last_end (pos_of s) o1) en1) as [[o2 en2]|].
      * destruct IHr as (rm & t2 & s2 & H2 & TE2 & TM2 & FG2 & NE2 & IO2 & O2 & ST2 & P2 & E2).
        rewrite (expect_ok _ _ _ _ H2). cbn [bind].
        replace (nonempty rm) with true by (destruct rm; [congruence|auto]). cbn [assert bind].
        rewrite (min_start_good rm (last_end (pos_of s) o1)) by (auto; congruence). cbn [bind]. rewrite IO2.
        assert (NO2 : o2 <> []) by (rewrite <- IO2; apply infoss_nonempty; auto).
        pose proof (in_order_first _ _ O2 NO2). pose proof (st_pos _ ST2). 
        rewrite search_range_ok by (rewrite (st_buf _ ST2); lia). cbn [bind].
        pose proof (tree_not_spec root (last_end (pos_of s) o1) (first_start o2) t2 s2 ST2 ltac:(lia)) as TN.
        rewrite E2 in TN. destruct (absentb root (last_end (pos_of s) o1) (first_start o2) en2).
        -- rewrite TN. cbn [bind]. exists (lm ++ [] ++ rm), (t_pass t2 (length root)), s2. simpl app. splits; auto.
           ++ simpl. congruence.
           ++ simpl. congruence.
           ++ apply Forall_app; auto.
           ++ destruct lm; [congruence|discriminate].
           ++ rewrite infoss_app. congruence.
           ++ apply in_order_app. auto.
           ++ rewrite last_end_app. auto.
        -- intros x t' s' HH [_ C]. rewrite TN in HH. cbn [bind] in HH. inj HH.
           apply Forall_app in C as [_ C]. inversion C; subst. discriminate.
      * intros x t' s' HH C. apply bind_val in HH as ([[gr t2] s2] & HR & HH). apply expect_val in HR.
        specialize (IHr _ _ _ HR). apply IHr. destruct gr as [rm|rm|e]; [| |discriminate].
        -- apply bind_val in HH as (u & _ & HH). apply bind_val in HH as (rs & _ & HH).
           apply bind_val in HH as (ex & _ & HH). apply bind_val in HH as ([[extra t3] s3] & HN & HH). inj HH.
           apply tree_not_errors in HN. destruct C as [C1 C2]. split; [congruence|].
           apply Forall_app in C2 as [_ C2]. now apply Forall_app in C2 as [_ C2].
        -- inj HH. destruct C as [C1 C2]. split; auto. now apply Forall_app in C2 as [_ C2].
    + intros x t' s' HH C. apply bind_val in HH as ([[gl t1] s1] & HL & HH). apply expect_val in HL.
      specialize (IHl _ _ _ HL). apply IHl. destruct gl as [lm|lm|e]; [| |discriminate].
      * apply bind_val in HH as (u & _ & HH). apply bind_val in HH as (le & _ & HH).
        apply bind_val in HH as ([[gr t2] s2] & HR & HH). apply expect_val in HR. apply GT in HR.
        destruct gr as [rm|rm|e]; [| |discriminate].
        -- apply bind_val in HH as (u' & _ & HH). apply bind_val in HH as (rs & _ & HH).
           apply bind_val in HH as (ex & _ & HH). apply bind_val in HH as ([[extra t3] s3] & HN & HH). inj HH.
           apply tree_not_errors in HN. destruct C as [C1 C2]. split; [eapply grows_nil; [exact HR|congruence]|].
           now apply Forall_app in C2 as [C2 _].
        -- inj HH. destruct C as [C1 C2]. split; [eapply grows_nil; [exact HR|exact C1]|]. now apply Forall_app in C2 as [C2 _].
      * apply bind_val in HH as ([[gr t2] s2] & HR & HH). apply expect_val in HR. apply GT in HR.
        destruct gr as [rm|rm|e]; [| |discriminate].
        -- apply bind_val in HH as (u' & _ & HH). apply bind_val in HH as (rs & _ & HH).
           apply bind_val in HH as (ex & _ & HH). apply bind_val in HH as ([[extra t3] s3] & HN & HH). inj HH.
           apply tree_not_errors in HN. destruct C as [C1 C2]. split; [eapply grows_nil; [exact HR|congruence]|].
           now apply Forall_app in C2 as [C2 _].
        -- inj HH. destruct C as [C1 C2]. split; [eapply grows_nil; [exact HR|exact C1]|]. now apply Forall_app in C2 as [C2 _].
  - (* before *)
    intros root l IHl Wl s ST t. simpl trun. cbn [check_tree].
    specialize (IHl Wl s ST t). destruct (trun l (pos_of s) (s_env s)) as [[o1 en1]|].
    + destruct IHl as (lm & t1 & s1 & H & TE & TM & FG & NE & IO & O1 & ST1 & P1 & E1).
      rewrite (expect_ok _ _ _ _ H). cbn [bind].
      replace (nonempty lm) with true by (destruct lm; [congruence|auto]). cbn [assert bind].
      unfold search_block. replace (c_end (s_cur s1)) with E by (symmetry; apply ST1).
      change (c_start (s_cur s1)) with (pos_of s1). pose proof (st_pos _ ST1).
      rewrite search_range_ok by (rewrite (st_buf _ ST1); lia). cbn [bind].
      pose proof (tree_not_spec root (pos_of s1) E t1 s1 ST1 ltac:(lia)) as TN.
      rewrite E1, P1 in TN. rewrite P1. destruct (absentb root (last_end (pos_of s) o1) E en1).
      * rewrite TN. cbn [bind]. exists (lm ++ []), (t_pass t1 (length root)), s1. rewrite app_nil_r. splits; auto.
      * intros x t' s' HH [_ C]. rewrite TN in HH. cbn [bind] in HH. inj HH.
        apply Forall_app in C as [_ C]. inversion C; subst. discriminate.
    + intros x t' s' HH C. apply bind_val in HH as ([[gl t1] s1] & HL & HH). apply expect_val in HL.
      specialize (IHl _ _ _ HL). apply IHl. destruct gl as [lm|lm|e]; [| |discriminate].
      * apply bind_val in HH as (u & _ & HH).
        apply bind_val in HH as (ex & _ & HH). apply bind_val in HH as ([[extra t3] s3] & HN & HH). inj HH.
        apply tree_not_errors in HN. destruct C as [C1 C2]. split; [congruence|]. now apply Forall_app in C2 as [C2 _].
      * apply bind_val in HH as (ex & _ & HH). apply bind_val in HH as ([[extra t3] s3] & HN & HH). inj HH.
        apply tree_not_errors in HN. destruct C as [C1 C2]. split; [congruence|]. now apply Forall_app in C2 as [C2 _].
  - (* after *)
    intros root r IHr Wr s ST t. simpl trun. cbn [check_tree].
    specialize (IHr Wr s ST t). destruct (trun r (pos_of s) (s_env s)) as [[o2 en2]|].
    + destruct IHr as (rm & t2 & s2 & H2 & TE2 & TM2 & FG2 & NE2 & IO2 & O2 & ST2 & P2 & E2).
      rewrite (expect_ok _ _ _ _ H2). cbn [bind].
      replace (nonempty rm) with true by (destruct rm; [congruence|auto]). cbn [assert bind].
      rewrite (min_start_good rm (pos_of s)) by (auto; congruence). cbn [bind]. rewrite IO2.
      assert (NO2 : o2 <> []) by (rewrite <- IO2; apply infoss_nonempty; auto).
      pose proof (in_order_first _ _ O2 NO2). pose proof (st_pos _ ST2).
      change (c_start (s_cur s)) with (pos_of s).
      rewrite search_range_ok by (rewrite (st_buf _ ST2); lia). cbn [bind].
      pose proof (tree_not_spec root (pos_of s) (first_start o2) t2 s2 ST2 ltac:(lia)) as TN.
      rewrite E2 in TN. destruct (absentb root (pos_of s) (first_start o2) en2).
      * rewrite TN. cbn [bind]. exists (rm ++ []), (t_pass t2 (length root)), s2. rewrite app_nil_r. splits; auto.
      * intros x t' s' HH [_ C]. rewrite TN in HH. cbn [bind] in HH. inj HH.
        apply Forall_app in C as [_ C]. inversion C; subst. discriminate.
    + intros x t' s' HH C. apply bind_val in HH as ([[gr t1] s1] & HL & HH). apply expect_val in HL.
      specialize (IHr _ _ _ HL). apply IHr. destruct gr as [rm|rm|e]; [| |discriminate].
      * apply bind_val in HH as (u & _ & HH). apply bind_val in HH as (rs & _ & HH).
        apply bind_val in HH as (ex & _ & HH). apply bind_val in HH as ([[extra t3] s3] & HN & HH). inj HH.
        apply tree_not_errors in HN. destruct C as [C1 C2]. split; [congruence|]. now apply Forall_app in C2 as [C2 _].
      * inj HH. destruct C as [C1 C2]. split; auto.
Qed.

(** * A list of groups *)
Fixpoint gsrun (gs : list (group L)) (pos : nat) (en : env L) : option (list minfo * env L) :=
  match gs with
  | [] => Some ([], en)
  | GNever ps :: r => if absentb ps pos E en then gsrun r pos en else None
  | g :: r =>
      match grun g pos en with
      | Some (o1, en1) => match gsrun r (last_end pos o1) en1 with
                          | Some (o2, en2) => Some (o1 ++ o2, en2) | None => None end
      | None => None
      end
  end.
Definition never_or_wf (g : group L) : Prop := match g with GNever ps => True | _ => wf_group g end.

Lemma append_good ms : forall t, Forall good_m ms ->
  t_errors (append_matches t ms) = t_errors t /\ t_matches (append_matches t ms) = t_matches t ++ infos ms.
Proof.
  unfold append_matches. induction ms as [|m r IH]; intros t F; simpl.
  - now rewrite app_nil_r.
  - inversion F as [|? ? [T I] F']; subst. destruct (IH (append_one t m) F') as [-> ->].
    unfold append_one. rewrite T. destruct (m_info m); [|congruence]. simpl. now rewrite <- app_assoc.
Qed.
Lemma appends_good mss : forall t, Forall good_ms mss ->
  t_errors (fold_left append_matches mss t) = t_errors t /\
  t_matches (fold_left append_matches mss t) = t_matches t ++ infoss mss.
Proof.
  induction mss as [|ms r IH]; intros t F; simpl.
  - now rewrite app_nil_r.
  - inversion F as [|? ? [_ G] F']; subst. destruct (IH (append_matches t ms) F') as [-> ->].
    destruct (append_good ms t G) as [-> ->]. unfold infoss. simpl. now rewrite app_assoc.
Qed.
Lemma append_one_grows t m : grows t (append_one t m).
Proof. unfold append_one. destruct (m_ty m); [| |apply grows_fail]; destruct (m_info m); apply grows_eq; reflexivity. Qed.
Lemma append_grows ms : forall t, grows t (append_matches t ms).
Proof.
  unfold append_matches. induction ms as [|m r IH]; intros t; simpl; auto.
  eapply grows_trans; [apply append_one_grows|apply IH].
Qed.
Lemma appends_grows mss : forall t, grows t (fold_left append_matches mss t).
Proof.
  induction mss as [|ms r IH]; intros t; simpl; auto. eapply grows_trans; [apply append_grows|apply IH].
Qed.
Lemma append_bad ms : forall t, ms_ok ms = false -> t_errors (append_matches t ms) <> [].
Proof.
  unfold append_matches. induction ms as [|m r IH]; intros t H; simpl in *; [discriminate|].
  destruct (m_is_ok m) eqn:M; simpl in H; [apply IH; auto|].
  intros N. apply (grows_nil (append_one t m)) in N; [|apply append_grows].
  unfold append_one, m_is_ok in *. destruct (m_ty m); try discriminate. simpl in N. destruct (t_errors t); discriminate.
Qed.
Lemma appends_clean mss : forall t, t_errors (fold_left append_matches mss t) = [] -> Forall (fun ms => ms_ok ms = true) mss.
Proof.
  induction mss as [|ms r IH]; intros t H; simpl in *; auto. constructor; [|eauto].
  destruct (ms_ok ms) eqn:M; auto. exfalso. apply (append_bad ms t M).
  eapply grows_nil; [|exact H]. apply appends_grows.
Qed.

Lemma check_groups_grows gs : forall t s t' s', check_groups (L:=L) gs t s = Val (t', s') -> grows t t'.
Proof.
  destruct check_grows as [GG _].
  induction gs as [|g r IH]; intros t s t' s' H; cbn [check_groups] in H.
  - inj H. auto.
  - apply bind_val in H as ([[x t1] s1] & HG & H). apply GG in HG. apply IH in H.
    eapply grows_trans; [exact HG|]. eapply grows_trans; [|exact H].
    destruct x; auto using appends_grows.
Qed.

Lemma check_groups_run gs : forall t s, st_ok s -> Forall never_or_wf gs ->
  match gsrun gs (pos_of s) (s_env s) with
  | Some (out, en') => exists t' s', check_groups gs t s = Val (t', s') /\ t_errors t' = t_errors t /\
      t_matches t' = t_matches t ++ out /\ s_env s' = en' /\ st_ok s'
  | None => forall t' s', check_groups gs t s = Val (t', s') -> t_errors t' <> []
  end.
Proof.
  pose proof E_len as EL. induction gs as [|g r IH]; intros t s ST W.
  - simpl. exists t, s. rewrite app_nil_r. auto.
  - inversion W as [|? ? W1 W2]; subst. cbn [check_groups].
    assert (K : wf_group g -> match match grun g (pos_of s) (s_env s) with
      | Some (o1, en1) => match gsrun r (last_end (pos_of s) o1) en1 with
                          | Some (o2, en2) => Some (o1 ++ o2, en2) | None => None end
      | None => None
      end with 
      | Some (out, en') => exists t' s', check_groups (g :: r) t s = Val (t', s') /\ t_errors t' = t_errors t /\
      t_matches t' = t_matches t ++ out /\ s_env s' = en' /\ st_ok s'
      | None => forall t' s', check_groups (g :: r) t s = Val (t', s') -> t_errors t' <> []
      end).
    { intros WG. pose proof (proj1 check_run g WG s ST t) as D. cbn [check_groups].
      destruct (grun g (pos_of s) (s_env s)) as [[o1 en1]|].
      - destruct D as (mss & t1 & s1 & H & TE & TM & FG & NE & IO & O1 & ST1 & P1 & E1). rewrite H. cbn [bind].
        destruct (appends_good mss t1 FG) as [AE AM].
        specialize (IH (fold_left append_matches mss t1) s1 ST1 W2). rewrite P1, E1 in IH.
        destruct (gsrun r (last_end (pos_of s) o1) en1) as [[o2 en2]|].
        + destruct IH as (t' & s' & H' & TE' & TM' & E' & ST'). exists t', s'. splits; auto; try congruence.
          rewrite TM', AM, TM, IO. now rewrite app_assoc.
        + exact IH.
      - intros t' s' H N. apply bind_val in H as ([[x t1] s1] & HG & H). apply (D _ _ _ HG).
        apply check_groups_grows in H. apply grows_nil in H; [|auto].
        destruct x as [mss|mss|e].
        + split; [eapply grows_nil; [apply appends_grows|exact H]|]. now apply appends_clean in H.
        + split; [eapply grows_nil; [apply appends_grows|exact H]|]. now apply appends_clean in H.
        + simpl in H. destruct (t_errors t1); discriminate. }
    destruct g as [ps| | | | |]; try exact (K W1). clear K. cbn [gsrun check_group].
    unfold search_block. replace (c_end (s_cur s)) with E by (symmetry; apply ST).
    change (c_start (s_cur s)) with (pos_of s). pose proof (st_pos _ ST).
    rewrite search_range_ok by (rewrite (st_buf _ ST); lia). cbn [bind].
    destruct (check_not_spec ps (pos_of s) E s ST ltac:(lia)) as [A B].
    destruct (absentb ps (pos_of s) E (s_env s)).
    + rewrite A by auto. cbn [bind]. specialize (IH (fold_left append_matches [] (t_pass t (length ps))) s ST W2).
      destruct (gsrun r (pos_of s) (s_env s)) as [[o2 en2]|]; auto.
    + intros t' s' HH N. destruct (B eq_refl) as [i B']. rewrite B' in HH. cbn [bind] in HH.
      apply check_groups_grows in HH. apply grows_nil in HH; [|auto]. simpl in HH. destruct (t_errors t); discriminate.
Qed.
End Block.
