(** Proofs that checking does not abort. *)
From Verif Require Import Base Text_Model Text_Spec Text_Proofs Cursor_Model Cursor_Spec Cursor_Proofs
  Check_Model Program_Model Check_Spec Check_Proofs Program_Proofs File_Spec File_Proofs Free_Proofs Total_Spec.
Ltac splits := repeat match goal with |- _ /\ _ => split end.

(** * Ranges of results that are in input order *)
Lemma infos_rev ms : infos (rev ms) = rev (infos ms).
Proof. induction ms as [|m ms IH]; [reflexivity|]. cbn [rev infos]. rewrite infos_app, IH. cbn. destruct (m_info m); cbn; auto using app_nil_r. Qed.
Lemma first_info_hd ms : first_info ms = hd_error (infos ms).
Proof. induction ms as [|m ms IH]; cbn; auto. destruct (m_info m); auto. Qed.
Lemma last_info_hd ms : last_info ms = hd_error (rev (infos ms)).
Proof. unfold last_info. now rewrite first_info_hd, infos_rev. Qed.
Lemma last_end_hd lo is z : hd_error (rev is) = Some z -> last_end lo is = rend (i_span z).
Proof.
  revert lo. induction is as [|i is IH]; intros lo; cbn; [discriminate|]. destruct (rev is) as [|y r] eqn:R.
  - cbn. intros [= <-]. assert (is = []) by (rewrite <- (rev_involutive is), R; reflexivity). subst. reflexivity.
  - cbn. intros [= <-]. now apply IH.
Qed.
Lemma last_info_last ms m : ms <> [] -> m_info (last ms m) <> None -> last_info ms = m_info (last ms m).
Proof.
  intros NE. unfold last_info. destruct (exists_last NE) as (l & x & ->). rewrite last_last, rev_unit. cbn. destruct (m_info x); congruence.
Qed.

Lemma ms_range_order lo ms : in_order lo (infos ms) ->
  match infos ms with
  | [] => ms_range ms = Val None
  | i :: _ => ms_range ms = Val (Some (mkRange (rstart (i_span i)) (last_end lo (infos ms))))
  end.
Proof.
  intros O.
  assert (FB : match first_info ms, last_info ms with
    | Some a, Some z => do r <- unwrap (range_new (rstart (i_span a)) (rend (i_span z))); Val (Some r)
    | _, _ => Val None end =
    match infos ms with [] => Val None | i :: _ => Val (Some (mkRange (rstart (i_span i)) (last_end lo (infos ms)))) end).
  { rewrite first_info_hd, last_info_hd. destruct (infos ms) as [|i is] eqn:I; [reflexivity|]. cbn [hd_error].
    destruct (hd_error (rev (i :: is))) as [z|] eqn:Z.
    - rewrite (last_end_hd lo _ z Z). unfold range_new. pose proof (last_end_hd lo _ z Z) as LZ.
      assert (X : rstart (i_span i) <= rend (i_span z)).
      { rewrite <- LZ. pose proof (in_order_first lo (i :: is) O ltac:(discriminate)). cbn [first_start] in H. lia. }
      apply Nat.leb_le in X. rewrite X. reflexivity.
    - cbn in Z. destruct (rev is); discriminate. }
  assert (G : ms_range ms = match infos ms with [] => Val None | i :: _ => Val (Some (mkRange (rstart (i_span i)) (last_end lo (infos ms)))) end).
  2:{ rewrite G. destruct (infos ms); reflexivity. }
  unfold ms_range. destruct ms as [|m [|m2 ms]]; [exact FB| |].
  - destruct (m_info m) as [i|] eqn:I; [|exact FB]. destruct (m_is_ok m); [|exact FB].
    cbn [infos]. rewrite I. cbn [last_end]. destruct (i_span i); reflexivity.
  - set (z := last (m :: m2 :: ms) m) in *. destruct (m_info m) as [a|] eqn:A; [|exact FB].
    destruct (m_info z) as [c|] eqn:Z; [|exact FB]. destruct (m_is_ok m && m_is_ok z)%bool; [|exact FB].
    rewrite <- FB. rewrite (last_info_last (m :: m2 :: ms) m) by (fold z; congruence). fold z. rewrite Z. cbn [first_info]. now rewrite A.
Qed.

(** Results that lie between two positions, in order. *)
Definition fit (lo hi : nat) (ms : matches) : Prop := in_order lo (infos ms) /\ last_end lo (infos ms) <= hi.
Definition some_info (ms : matches) : Prop := infos ms <> [].
Lemma fit_weaken lo hi lo' hi' ms : lo' <= lo -> hi <= hi' -> lo' <= hi' -> fit lo hi ms -> fit lo' hi' ms.
Proof.
  intros A B C [O LE]. split; [exact (in_order_weaken _ _ _ A O)|]. destruct (infos ms) as [|i is] eqn:I; [exact C|].
  rewrite (last_end_nonempty lo' lo) by discriminate. lia.
Qed.
Lemma fits_weaken lo hi lo' hi' mss : lo' <= lo -> hi <= hi' -> lo' <= hi' -> Forall (fit lo hi) mss -> Forall (fit lo' hi') mss.
Proof. intros A B C. apply Forall_impl. intros ms. now apply fit_weaken. Qed.
Lemma fit_none lo hi e : lo <= hi -> fit lo hi [failed e].
Proof. intros H. split; cbn; auto. Qed.
Lemma fit_nil lo hi : lo <= hi -> fit lo hi [].
Proof. intros H. split; cbn; auto. Qed.

Lemma ranges_fit lo hi mss : lo <= hi -> Forall (fit lo hi) mss -> exists rs, ranges mss = Val rs /\
  Forall (fun r => lo <= rstart r <= rend r /\ rend r <= hi) rs /\ (Exists some_info mss -> rs <> []).
Proof.
  intros LH F. induction F as [|ms mss [O LE] F IH].
  - exists []. splits; auto. intros X; inversion X.
  - destruct IH as (rs & R & FR & SO). cbn [ranges]. pose proof (ms_range_order lo ms O) as M.
    destruct (infos ms) as [|i is] eqn:I.
    + rewrite M, R. cbn. exists rs. splits; auto. intros X. inversion X; subst; auto.
    + rewrite M, R. cbn [bind]. eexists. split; [reflexivity|]. split; [|discriminate]. constructor; auto. cbn [rstart rend].
      pose proof (in_order_first lo (i :: is) O ltac:(discriminate)) as X. cbn [first_start] in X. lia.
Qed.
Lemma fold_max_bounds (l : list range) : forall a lo hi, lo <= a <= hi -> Forall (fun r => lo <= rstart r <= rend r /\ rend r <= hi) l ->
  lo <= fold_left (fun a x => Nat.max a (rend x)) l a <= hi.
Proof. induction l as [|r l IH]; intros a lo hi A F; cbn; auto. inversion F; subst. apply IH; auto. lia. Qed.
Lemma fold_min_bounds (l : list range) : forall a lo hi, lo <= a <= hi -> Forall (fun r => lo <= rstart r <= rend r /\ rend r <= hi) l ->
  lo <= fold_left (fun a x => Nat.min a (rstart x)) l a <= hi.
Proof. induction l as [|r l IH]; intros a lo hi A F; cbn; auto. inversion F; subst. apply IH; auto. lia. Qed.
Lemma max_end_fit lo hi mss : lo <= hi -> Forall (fit lo hi) mss -> Exists some_info mss -> exists n, max_end mss = Val n /\ lo <= n <= hi.
Proof.
  intros LH F X. destruct (ranges_fit lo hi mss LH F) as (rs & R & FR & NE). specialize (NE X). unfold max_end. rewrite R. cbn [bind].
  destruct FR as [|r rs H FR]; [congruence|]. eexists. split; [reflexivity|]. apply fold_max_bounds; auto. lia.
Qed.
Lemma min_start_fit lo hi mss : lo <= hi -> Forall (fit lo hi) mss -> Exists some_info mss -> exists n, min_start mss = Val n /\ lo <= n <= hi.
Proof.
  intros LH F X. destruct (ranges_fit lo hi mss LH F) as (rs & R & FR & NE). specialize (NE X). unfold min_start. rewrite R. cbn [bind].
  destruct FR as [|r rs H FR]; [congruence|]. eexists. split; [reflexivity|]. apply fold_min_bounds; auto. lia.
Qed.
Lemma nonempty_exists {A} (P : A -> Prop) l : Exists P l -> nonempty l = true.
Proof. destruct 1; reflexivity. Qed.

(** rewriting only takes locations away *)
Lemma rewrite_fit rr lo hi ms : lo <= hi -> fit lo hi ms -> fit lo hi (map (rewrite_left rr) ms).
Proof.
  intros LH. revert lo LH. induction ms as [|m ms IH]; intros lo LH [O LE]; cbn [map]; [now apply fit_nil|].
  unfold fit in *. cbn [infos] in *. destruct (m_info m) as [i|] eqn:I.
  - cbn [in_order last_end] in O, LE. destruct O as [R O].
    assert (X : rend (i_span i) <= hi) by (pose proof (in_order_le _ _ O); lia).
    destruct (IH _ X (conj O LE)) as [O' LE'].
    assert (C : m_info (rewrite_left rr m) = Some i \/ m_info (rewrite_left rr m) = None).
    { unfold rewrite_left. rewrite I. destruct (_ || _)%bool; auto. destruct (m_ty m) as [| |[]]; cbn; auto. }
    destruct C as [-> | ->].
    + cbn [in_order last_end]. auto.
    + fold (fit lo hi (map (rewrite_left rr) ms)). apply (fit_weaken (rend (i_span i)) hi); try lia. split; auto.
  - assert (C : m_info (rewrite_left rr m) = None) by (unfold rewrite_left; rewrite I; exact I). rewrite C. apply IH; auto.
Qed.

(** A language whose matches are never empty, and whose CHECK-DAG results are in input order even
    when some are missing. *)
Record lang_total (L : lang) : Prop := {
  tot_pm : forall (p : pat L) b s e en m en' i, s <= e <= length b -> pm p b (mkRange s e) en = Val (m, en') ->
    m_ty m = Good -> m_info m = Some i -> rstart (i_span i) < e;
  tot_dm : forall (ps : list (pat L)) b s e en ms en' pos, s <= e <= length b -> ps <> [] ->
    dm ps b (mkRange s e) en = Val (ms, en', pos) -> fit s e ms }.

Section Total.
Context {L : lang} (LO : lang_ok L) (LT : lang_total L).
Variables (b : bytes) (E : nat).
Hypothesis BE : block_end_ok b E.
Let st_ok := @st_ok L b E.
Let pos_of := @pos_of L.

(** no CHECK-NEXT, unless the block ends with the input *)
Definition rule_safe (r : rule L) : Prop := match r with RNext _ => E = length b | _ => True end.
Lemma apply_rule_total r s : st_ok s -> rule_safe r ->
  exists m s', apply_rule r s = Val ([m], s') /\ st_ok s' /\ pos_of s <= pos_of s' /\
    ((good_m m /\ exists i, m_info m = Some i /\ pos_of s <= rstart (i_span i) <= rend (i_span i) /\ rend (i_span i) <= pos_of s') \/
     exists er, m_ty m = Failed er /\ labelled er = true).
Proof.
  intros ST RS. pose proof (apply_rule_run LO b E BE r s ST) as A.
  destruct (rule_run b E r (Check_Proofs.pos_of s) (s_env s)) as [[i en']|] eqn:RR.
  - destruct A as (m & s' & A1 & T & I & ST' & P' & E' & R). exists m, s'. unfold pos_of in *. splits; auto; [lia|].
    left. split; [split; congruence|]. exists i. splits; auto; lia.
  - destruct A as [A|(m & er & s' & A1 & T & F & C)].
    + exfalso. pose proof (st_pos b E BE s ST) as P. pose proof (E_len b E BE) as EL. pose proof (st_buf b E s ST) as B.
      assert (CR : c_crlf (s_cur s) = false) by apply ST. set (ps := Check_Proofs.pos_of s) in *.
      destruct r as [p|p|p|]; simpl in A.
      * unfold apply_plain, search_block in A. replace (c_end (s_cur s)) with E in A by (symmetry; apply ST).
        change (c_start (s_cur s)) with ps in A. rewrite search_range_ok in A by (rewrite B; lia). simpl in A.
        pose proof (match_mut_run LO b E p ps E s ST ltac:(lia)) as M. simpl in RR. rewrite RR in M.
        destruct M as (m & er & M & T & F). rewrite M in A. simpl in A. unfold advance, m_is_ok in A. rewrite T in A. simpl in A. destruct (m_info m); discriminate.
      * simpl in RS. unfold apply_next in A. rewrite (start_of_next_line_ok b) in A by (auto; unfold ps, Check_Proofs.pos_of in P; lia). simpl in A.
        change (c_start (s_cur s)) with ps in A. pose proof (next_of_le b ps ltac:(lia)) as NL.
        destruct (next_newline_from_ok b (s_cur s) (next_of b ps) B CR ltac:(lia)) as (x & X0 & X1 & X2). rewrite X0 in A. simpl in A.
        replace (c_end (s_cur s)) with E in A by (symmetry; apply ST). simpl in RR.
        destruct (Nat.leb_spec E (next_of b ps)).
        { rewrite search_range_ok in A by (rewrite B; lia). discriminate. }
        pose proof (eol_in b E BE (next_of b ps) ltac:(lia)).
        assert (U : unwrap_or x E = eol_of b (next_of b ps)).
        { destruct X1 as [X1|X1]; rewrite X1 in *; auto. simpl in X2 |- *. lia. }
        rewrite U in A. destruct (eol_of_ok b (next_of b ps) ltac:(lia)) as [? _].
        rewrite search_range_ok in A by (rewrite B; lia). simpl in A.
        pose proof (match_mut_run LO b E p (next_of b ps) (eol_of b (next_of b ps)) s ST ltac:(lia)) as M. rewrite RR in M.
        destruct M as (m & er & M & T & F). rewrite M in A. simpl in A. unfold advance, m_is_ok in A. rewrite T in A. simpl in A. destruct (m_info m); discriminate.
      * unfold apply_same, search_line in A. rewrite (st_eol b E BE s ST) in A. change (c_start (s_cur s)) with ps in A.
        fold ps in A.
        pose proof (eol_in b E BE _ P). destruct (eol_of_ok b ps ltac:(lia)) as [? _].
        rewrite search_range_ok in A by (rewrite B; lia). simpl in A.
        pose proof (match_mut_run LO b E p ps (eol_of b ps) s ST ltac:(lia)) as M. simpl in RR.
        destruct (pm_run b p ps (eol_of b ps) (s_env s)) as [[i en']|] eqn:PR.
        -- destruct M as (m & M & T & I & R). unfold pm_run in PR.
           destruct (ok_pm L LO p b ps (eol_of b ps) (s_env s)) as (m2 & en2 & PM & _); [lia|]. rewrite PM in PR.
           destruct (m_ty m2) eqn:T2; try discriminate. destruct (m_info m2) eqn:I2; [|discriminate]. injection PR as -> ->.
           pose proof (tot_pm L LT p b ps (eol_of b ps) (s_env s) m2 en' i ltac:(lia) PM T2 I2) as TH.
           apply Nat.ltb_lt in TH. rewrite TH in RR. discriminate.
        -- destruct M as (m & er & M & T & F). rewrite M in A. simpl in A. unfold m_is_ok in A. rewrite T in A. simpl in A.
           destruct (m_info m); simpl in A; [discriminate|].
           unfold search_block in A. replace (c_end (s_cur s)) with E in A by (symmetry; apply ST). change (c_start (s_cur s)) with ps in A.
           rewrite search_range_ok in A by (rewrite B; lia). simpl in A.
           pose proof (match_mut_run LO b E p ps E s ST ltac:(lia)) as M'. destruct (pm_run b p ps E (s_env s)) as [[i en']|].
           ++ destruct M' as (m' & M' & T' & I & R). rewrite M' in A. simpl in A. rewrite I in A. discriminate.
           ++ destruct M' as (m' & er' & M' & T' & F'). rewrite M' in A. simpl in A. destruct (m_info m'); discriminate.
      * unfold apply_empty in A. rewrite (start_of_next_line_ok b) in A by (auto; unfold ps, Check_Proofs.pos_of in P; lia). simpl in A.
        change (c_start (s_cur s)) with ps in A. pose proof (next_of_le b ps ltac:(lia)) as NL.
        destruct (next_newline_from_ok b (s_cur s) (next_of b ps) B CR ltac:(lia)) as (x & X0 & X1 & X2). rewrite X0 in A. simpl in A.
        unfold end_of_file in A. rewrite B, X2 in A.
        destruct (at_eol_ok b (s_cur s) B CR) as (y & Y0 & _). { unfold ps, Check_Proofs.pos_of in P. lia. }
        rewrite Y0 in A. simpl in A.
        destruct (eol_of_ok b (next_of b ps) ltac:(lia)) as (? & _).
        destruct (y && _)%bool.
        -- destruct (move_start_ok b E s (eol_of b (next_of b ps)) ST) as (s' & MV & _). rewrite MV in A. discriminate.
        -- rewrite search_range_ok in A by (rewrite B; lia). discriminate.
    + exists m, s'. splits; auto.
      * destruct ST as (K & C2 & X). unfold st_ok, Check_Proofs.st_ok. rewrite C. auto.
      * unfold pos_of, Check_Proofs.pos_of. rewrite C. lia.
      * right. eauto.
Qed.

(** What the groups give: locations between two positions, never the refused case. *)
Definition res_ok (lo hi : nat) (x : gres) : Prop :=
  match x with
  | GFail _ => False
  | GErr mss => Forall (fit lo hi) mss
  | GOk mss => Forall (fit lo hi) mss /\ Exists some_info mss
  end.
Lemma res_weaken lo hi lo' hi' x : lo' <= lo -> hi <= hi' -> lo' <= hi' -> res_ok lo hi x -> res_ok lo' hi' x.
Proof. intros A B C. destruct x; cbn; auto; [intros [F X]; split; auto|intros F]; (eapply fits_weaken; [| | |eassumption]; auto). Qed.

Lemma fit_one lo hi m i : m_info m = Some i -> lo <= rstart (i_span i) <= rend (i_span i) -> rend (i_span i) <= hi -> fit lo hi [m].
Proof. intros I R X. unfold fit. cbn. rewrite I. cbn. auto. Qed.

Lemma check_ordered_total rs : forall p0 mss t s, st_ok s -> Forall rule_safe rs -> p0 <= pos_of s ->
  Forall (fit p0 (pos_of s)) mss -> Forall some_info mss ->
  exists x t' s', check_ordered rs mss t s = Val (x, t', s') /\ st_ok s' /\ pos_of s <= pos_of s' /\ res_ok p0 (pos_of s') x /\
    (forall rm, x = GOk rm -> Forall some_info rm).
Proof.
  induction rs as [|r rs IH]; intros p0 mss t s ST RS P F SI.
  - destruct mss as [|ms mss].
    + exists (GErr []), t, s. splits; auto; try constructor; discriminate.
    + inversion F as [|? ? [O LE] F']; inversion SI as [|? ? S1 S2]; subst. pose proof (ms_range_order p0 ms O) as M.
      unfold some_info in S1. destruct (infos ms) as [|i is] eqn:I; [congruence|]. cbn [check_ordered]. rewrite M. cbn [bind].
      exists (GOk (ms :: mss)), t, s. splits; auto.
      * split; auto. left. unfold some_info. congruence.
      * intros rm [= <-]. auto.
  - inversion RS as [|? ? R1 R2]; subst. destruct (apply_rule_total r s ST R1) as (m & s1 & A & ST1 & P1 & D).
    cbn [check_ordered]. rewrite A. destruct D as [(G & i & I & R & X)|(er & T & LB)].
    + replace (ms_ok [m]) with true by (cbn; rewrite (good_m_ok m G); reflexivity).
      destruct (IH p0 (mss ++ [[m]]) t s1 ST1 R2 ltac:(lia)) as (x & t' & s' & C & ST' & P' & RO & FS).
      * apply Forall_app; split; [(eapply fits_weaken; [| | |eassumption]; lia)|]. constructor; auto. apply (fit_one _ _ m i); auto; lia.
      * apply Forall_app; split; auto. constructor; auto. unfold some_info. cbn. rewrite I. discriminate.
      * exists x, t', s'. splits; auto. lia.
    + replace (ms_ok [m]) with false by (cbn; unfold m_is_ok; rewrite T; reflexivity).
      eexists _, _, s1. split; [reflexivity|]. splits; auto; [|discriminate]. cbn. (eapply fits_weaken; [| | |eassumption]; lia).
Qed.

Lemma check_repeated_total r n : forall p0 mss t s, st_ok s -> rule_safe r -> p0 <= pos_of s ->
  Forall (fit p0 (pos_of s)) mss -> Forall some_info mss -> n <> 0 \/ mss <> [] ->
  exists x t' s', check_repeated r n mss t s = Val (x, t', s') /\ st_ok s' /\ pos_of s <= pos_of s' /\ res_ok p0 (pos_of s') x /\
    (forall rm, x = GOk rm -> Forall some_info rm).
Proof.
  induction n as [|n IH]; intros p0 mss t s ST RS P F SI NE.
  - exists (GOk mss), t, s. splits; auto.
    + split; auto. destruct mss; [destruct NE; congruence|]. left. now inversion SI.
    + intros rm [= <-]. auto.
  - destruct (apply_rule_total r s ST RS) as (m & s1 & A & ST1 & P1 & D).
    cbn [check_repeated]. rewrite A. cbn [fold_left existsb]. destruct D as [(G & i & I & R & X)|(er & T & LB)].
    + rewrite (good_m_ok m G). destruct G as [T _]. rewrite T. cbn [ms_push orb].
      destruct (IH p0 (mss ++ [[m]]) t s1 ST1 RS ltac:(lia)) as (x & t' & s' & C & ST' & P' & RO & FS).
      * apply Forall_app; split; [(eapply fits_weaken; [| | |eassumption]; lia)|]. constructor; auto. apply (fit_one _ _ m i); auto; lia.
      * apply Forall_app; split; auto. constructor; auto. unfold some_info. cbn. rewrite I. discriminate.
      * right. destruct mss; discriminate.
      * exists x, t', s'. splits; auto. lia.
    + rewrite T, LB. cbn [orb]. eexists _, _, s1. split; [reflexivity|]. splits; auto; [|discriminate]. cbn. (eapply fits_weaken; [| | |eassumption]; lia).
Qed.

Lemma apply_dag_total ds s : st_ok s -> ds <> [] -> exists ms s', apply_dag ds s = Val (ms, s') /\ st_ok s' /\ pos_of s <= pos_of s' /\ fit (pos_of s) E ms.
Proof.
  intros ST NE. pose proof (st_pos b E BE s ST) as P. pose proof (E_len b E BE) as EL. pose proof (st_buf b E s ST) as B.
  destruct (ok_dm L LO ds b (Check_Proofs.pos_of s) E (s_env s)) as (ms & en' & pos & D & G); [lia|auto|].
  pose proof (tot_dm L LT ds b (Check_Proofs.pos_of s) E (s_env s) ms en' pos ltac:(lia) NE D) as FT.
  unfold apply_dag, search_block. replace (c_end (s_cur s)) with E by (symmetry; apply ST).
  change (c_start (s_cur s)) with (Check_Proofs.pos_of s). rewrite search_range_ok by (rewrite B; lia).
  unfold buf. cbn [bind]. rewrite B, D. cbn [bind].
  assert (C : exists c, match pos with Some n => set_start (s_cur s) n | None => Val (s_cur s) end = Val c).
  { destruct pos as [n|]; eauto. destruct (set_start_ok b (s_cur s) n) as (c' & H & _); try apply ST. eauto. }
  destruct C as [c C]. rewrite C. cbn [bind]. eexists _, _. split; [reflexivity|]. destruct (ms_ok ms) eqn:OK; [|splits; auto].
  destruct (G eq_refl) as (_ & _ & O & ->). destruct (set_start_ok b (s_cur s) (last_end (Check_Proofs.pos_of s) (infos ms))) as (c' & H & K' & C' & X' & P'); try apply ST.
  rewrite H in C. injection C as <-. pose proof (proj2 FT) as LE. splits; auto.
  - split; auto. split; auto. cbn. rewrite X'. apply ST.
  - unfold pos_of, Check_Proofs.pos_of at 2. cbn [s_cur]. rewrite P'. replace (c_end (s_cur s)) with E by (symmetry; apply ST).
    pose proof (in_order_le _ _ O). lia.
Qed.

Definition item_safe (i : item L) : Prop := match i with IRule r | ICount r _ => rule_safe r | _ => True end.
Definition is_dag (i : item L) : Prop := match i with IDags _ _ => True | _ => False end.
(** what a group may reach: the cursor, or the end of the block when CHECK-DAG is involved *)
Definition bound (its : list (item L)) (s' : state L) (hi : nat) : Prop := hi = E \/ (hi = pos_of s' /\ Forall (fun i => ~ is_dag i) its).
Definition group_total (its : list (item L)) (chk : test_result -> state L -> res (gres * test_result * state L)) : Prop :=
  forall t s, st_ok s -> exists x t' s', chk t s = Val (x, t', s') /\ st_ok s' /\ pos_of s <= pos_of s' /\
    forall hi, bound its s' hi -> res_ok (pos_of s) hi x.

Lemma simple_total g : simple g -> Forall item_safe (flat g) -> forall t s, st_ok s ->
  exists x t' s', check_group g t s = Val (x, t', s') /\ st_ok s' /\ pos_of s <= pos_of s' /\ res_ok (pos_of s) (pos_of s') x /\
    (forall rm, x = GOk rm -> Forall some_info rm).
Proof.
  intros S F t s ST. destruct g as [| | |rs|r n|]; cbn in S; try contradiction; cbn [check_group].
  - apply check_ordered_total; auto; try (constructor; fail). cbn in F. rewrite Forall_map in F. exact F.
  - apply check_repeated_total; auto; try (constructor; fail). cbn in F. now inversion F.
Qed.
Lemma bound_le its s' hi : st_ok s' -> bound its s' hi -> pos_of s' <= hi /\ hi <= E.
Proof. intros ST [-> |[-> _]]; pose proof (st_pos b E BE s' ST); unfold pos_of; lia. Qed.

Lemma leaf_total g : leaf g -> Forall item_safe (flat g) -> group_total (flat g) (check_group g).
Proof.
  intros S F t s ST. destruct g as [|ds|ds g'|rs|r n|]; cbn in S; try contradiction.
  - cbn [check_group]. destruct (apply_dag_total ds s ST S) as (ms & s' & A & ST' & P' & FT). rewrite A.
    pose proof (ms_range_order _ ms (proj1 FT)) as M. assert (EX : exists o, ms_range ms = Val o /\ (o <> None -> some_info ms)).
    { unfold some_info. destruct (infos ms); rewrite M; eexists; split; try reflexivity; congruence. }
    destruct EX as (o & O & SI). rewrite O. cbn [bind]. eexists _, _, s'. split; [reflexivity|]. splits; auto.
    intros hi [-> |[_ X]]; [|inversion X; cbn in *; tauto]. destruct o; cbn; auto. split; auto. left. apply SI. discriminate.
  - destruct S as [NE S]. cbn [flat] in F. inversion F as [|? ? _ F']; subst. cbn [check_group].
    destruct (apply_dag_total ds s ST NE) as (lm & s1 & A & ST1 & P1 & FT). rewrite A.
    destruct (simple_total g' S F' t s1 ST1) as (x & t1 & s2 & C & ST2 & P2 & RO & FS). rewrite C. cbn [bind].
    pose proof (st_pos b E BE s2 ST2) as PE2. fold (pos_of s2) in PE2.
    pose proof (ms_range_order _ lm (proj1 FT)) as M.
    assert (EX : exists o, ms_range lm = Val o /\ (o <> None -> some_info lm)).
    { unfold some_info. destruct (infos lm); rewrite M; eexists; split; try reflexivity; congruence. }
    destruct EX as (lo & O & SI). clear M.
    destruct x as [rm|rm|]; cbn [res_ok] in RO; [| |contradiction].
    + destruct RO as [FR XR]. specialize (FS rm eq_refl). destruct rm as [|r0 rm]; [inversion XR|].
      inversion FR as [|? ? [O0 LE0] FR']; inversion FS as [|? ? S0 S1]; subst. pose proof (ms_range_order _ r0 O0) as M0.
      unfold some_info in S0. destruct (infos r0) as [|i0 is0] eqn:I0; [congruence|]. rewrite M0, O. cbn [bind unwrap].
      eexists _, _, s2. split; [reflexivity|]. splits; auto; [lia|]. intros hi [-> |[_ X]]; [|inversion X; cbn in *; tauto].
      cbn [res_ok]. split.
      * constructor; [|(eapply fits_weaken; [| | |eassumption]; lia)].
        assert (PE : pos_of s <= E) by lia.
        destruct lo as [lr|]; auto. destruct (_ || _)%bool; auto. apply rewrite_fit; auto.
      * right. left. unfold some_info. congruence.
    + rewrite O. cbn [bind]. eexists _, _, s2. split; [reflexivity|]. splits; auto; [lia|]. intros hi [-> |[_ X]]; [|inversion X; cbn in *; tauto].
      assert (FF : Forall (fit (pos_of s) E) (lm :: rm)) by (constructor; auto; (eapply fits_weaken; [| | |eassumption]; lia)).
      destruct lo; cbn [res_ok]; auto. split; auto. left. apply SI. discriminate.
  - destruct (simple_total (GOrdered rs) S F t s ST) as (x & t' & s' & C & ST' & P' & RO & _). exists x, t', s'. splits; auto.
    intros hi HB. pose proof (bound_le _ _ _ ST' HB). (eapply res_weaken; [| | |eassumption]; lia).
  - destruct (simple_total (GRepeated r n) S F t s ST) as (x & t' & s' & C & ST' & P' & RO & _). exists x, t', s'. splits; auto.
    intros hi HB. pose proof (bound_le _ _ _ ST' HB). (eapply res_weaken; [| | |eassumption]; lia).
Qed.

Lemma tree_not_total ps lo hi t s : st_ok s -> lo <= hi <= length b ->
  exists extra t', tree_not ps (mkRange lo hi) t s = Val (extra, t', s) /\ (extra = [] \/ extra = [[failed EExcluded]]).
Proof.
  intros ST H. pose proof (tree_not_spec LO b E ps lo hi t s ST H) as X. destruct (absentb _ _ _ _ _); eauto 6.
Qed.
Lemma group_expect its chk t s : group_total its chk -> st_ok s ->
  exists x t' s', expect_tree (chk t s) = Val (x, t', s') /\ st_ok s' /\ pos_of s <= pos_of s' /\
    forall hi, bound its s' hi -> res_ok (pos_of s) hi x.
Proof.
  intros G ST. destruct (G t s ST) as (x & t' & s' & C & ST' & P & R). exists x, t', s'. splits; auto. rewrite C. cbn.
  destruct x; auto. exfalso. apply (R E). left. reflexivity.
Qed.
Lemma bound_app a i c s' hi : bound (a ++ INots i :: c) s' hi -> bound a s' hi /\ bound c s' hi.
Proof.
  intros [-> |[-> F]]; [split; left; reflexivity|]. apply Forall_app in F as [F1 F2]. inversion F2; subst. split; right; auto.
Qed.

(** No CHECK-DAG to the left of a CHECK-NOT that has something on both sides. *)
Fixpoint tree_safe (t : tree L) : Prop :=
  match t with
  | TAround root l r => Forall (fun i => ~ is_dag i) (flat_tree l) /\ tree_safe l /\ tree_safe r
  | TBefore root l => tree_safe l
  | TAfter root r => tree_safe r
  | TAll _ => True
  end.
Lemma extra_fit lo hi extra : lo <= hi -> extra = [] \/ extra = [[failed EExcluded]] -> Forall (fit lo hi) extra.
Proof. intros H [-> | ->]; repeat constructor; cbn; auto. Qed.

Lemma opn_tree_total : forall tr, opn_tree tr -> tree_safe tr -> Forall item_safe (flat_tree tr) -> group_total (flat_tree tr) (check_tree tr).
Proof.
  fix IH 1. intros [g|root l r|root l|root r] O TS F.
  - intros t s ST. destruct (leaf_total g O F t s ST) as (x & t' & s' & C & H). exists x, t', s'. split; [exact C|exact H].
  - destruct r as [g| | |]; try contradiction. destruct O as (_ & OL & OG). destruct TS as (ND & TL & _).
    cbn [flat_tree] in F. apply Forall_app in F as [FL FG]. inversion FG as [|? ? _ FG']; subst. clear FG.
    pose proof (IH l OL TL FL) as GL. clear IH. assert (GR : group_total (flat g) (check_tree (TAll g))) by exact (leaf_total g OG FG'). intros t s ST.
    change (flat_tree (TAround root l (TAll g))) with (flat_tree l ++ INots root :: flat g). remember (TAll g) as rt eqn:RT.
    destruct (group_expect _ _ t s GL ST) as (gl & t1 & s1 & CL & ST1 & P1 & RL).
    cbn [check_tree]. rewrite CL. cbn [bind].
    assert (CR : exists gr t2 s2, expect_tree (check_tree rt t1 s1) = Val (gr, t2, s2) /\ st_ok s2 /\ pos_of s1 <= pos_of s2 /\
       (forall hi, bound (flat g) s2 hi -> res_ok (pos_of s1) hi gr)) by (exact (group_expect _ (check_tree rt) t1 s1 GR ST1)).
    destruct CR as (gr & t2 & s2 & CR & ST2 & P2 & RR).
    assert (EL : E <= length b) by apply (E_len b E BE).
    pose proof (st_pos b E BE s2 ST2) as PE2. fold (pos_of s2) in PE2. pose proof (st_buf b E s2 ST2) as B2.
    pose proof (RL (pos_of s1) (or_intror (conj eq_refl ND))) as RL1. pose proof (RR E (or_introl eq_refl)) as RR1.
    assert (RNG : forall lo hi, lo <= hi <= E -> search_range (s_cur s2) lo hi = Val (mkRange lo hi)).
    { intros lo hi H. apply search_range_ok. rewrite B2. lia. }
    destruct gl as [lm|lm|]; cbn [res_ok] in RL1; [| |contradiction].
    + destruct RL1 as [FL1 XL]. rewrite (nonempty_exists _ _ XL). cbn [assert bind].
      destruct (max_end_fit _ _ lm P1 FL1 XL) as (le & -> & LE). cbn [bind]. rewrite CR. cbn [bind].
      destruct gr as [rm|rm|]; cbn [res_ok] in RR1; [| |contradiction].
      * destruct RR1 as [FR1 XR]. rewrite (nonempty_exists _ _ XR). cbn [assert bind].
        destruct (min_start_fit (pos_of s1) E rm ltac:(lia) FR1 XR) as (rs & -> & RS). cbn [bind]. rewrite RNG by lia. cbn [bind].
        destruct (tree_not_total root le rs t2 s2 ST2 ltac:(lia)) as (extra & t3 & TN & EX). rewrite TN. cbn [bind].
        eexists _, _, s2. split; [reflexivity|]. splits; auto; [lia|]. intros hi HB. apply bound_app in HB as [_ HB].
        pose proof (bound_le _ _ _ ST2 HB). cbn [res_ok]. destruct (RR hi HB) as [FR2 _]. split.
        -- apply Forall_app; split; [(eapply fits_weaken; [| | |eassumption]; lia)|]. apply Forall_app; split; [apply extra_fit; auto; lia|(eapply fits_weaken; [| | |eassumption]; lia)].
        -- apply Exists_app. auto.
      * eexists _, _, s2. split; [reflexivity|]. splits; auto; [lia|]. intros hi HB. apply bound_app in HB as [_ HB].
        pose proof (bound_le _ _ _ ST2 HB). pose proof (RR hi HB) as FR2. cbn [res_ok] in *. split.
        -- apply Forall_app; split; (eapply fits_weaken; [| | |eassumption]; lia).
        -- apply Exists_app. auto.
    + rewrite CR. cbn [bind]. destruct gr as [rm|rm|]; cbn [res_ok] in RR1; [| |contradiction].
      * destruct RR1 as [FR1 XR]. rewrite (nonempty_exists _ _ XR). cbn [assert bind].
        destruct (min_start_fit (pos_of s1) E rm ltac:(lia) FR1 XR) as (rs & -> & RS). cbn [bind]. change (c_start (s_cur s1)) with (pos_of s1). rewrite RNG by lia. cbn [bind].
        destruct (tree_not_total root (pos_of s1) rs t2 s2 ST2 ltac:(lia)) as (extra & t3 & TN & EX). rewrite TN. cbn [bind].
        eexists _, _, s2. split; [reflexivity|]. splits; auto; [lia|]. intros hi HB. apply bound_app in HB as [_ HB].
        pose proof (bound_le _ _ _ ST2 HB). cbn [res_ok]. destruct (RR hi HB) as [FR2 _]. split.
        -- apply Forall_app; split; [(eapply fits_weaken; [| | |eassumption]; lia)|]. apply Forall_app; split; [apply extra_fit; auto; lia|(eapply fits_weaken; [| | |eassumption]; lia)].
        -- apply Exists_app. right. apply Exists_app. auto.
      * eexists _, _, s2. split; [reflexivity|]. splits; auto; [lia|]. intros hi HB. apply bound_app in HB as [_ HB].
        pose proof (bound_le _ _ _ ST2 HB). pose proof (RR hi HB) as FR2. cbn [res_ok] in *.
        apply Forall_app; split; (eapply fits_weaken; [| | |eassumption]; lia).
  - contradiction.
  - destruct r as [g| | |]; try contradiction. destruct O as (_ & OG). cbn [flat_tree] in F. inversion F as [|? ? _ FG]; subst.
    assert (GR : group_total (flat g) (check_tree (TAll g))) by exact (leaf_total g OG FG). clear IH. intros t s ST.
    change (flat_tree (TAfter root (TAll g))) with (INots root :: flat g). remember (TAll g) as rt eqn:RT. cbn [check_tree].
    destruct (group_expect _ (check_tree rt) t s GR ST) as (gr & t1 & s1 & CR & ST1 & P1 & RR). rewrite CR. cbn [bind].
    assert (EL : E <= length b) by apply (E_len b E BE).
    pose proof (st_pos b E BE s1 ST1) as PE1. fold (pos_of s1) in PE1. pose proof (st_buf b E s1 ST1) as B1.
    pose proof (RR E (or_introl eq_refl)) as RR1.
    assert (BB : forall hi, bound (INots root :: flat g) s1 hi -> bound (flat g) s1 hi) by (intros hi HB; apply (bound_app [] root (flat g) s1 hi HB)).
    destruct gr as [rm|rm|]; cbn [res_ok] in RR1; [| |contradiction].
    + destruct RR1 as [FR1 XR]. rewrite (nonempty_exists _ _ XR). cbn [assert bind].
      destruct (min_start_fit (pos_of s) E rm ltac:(lia) FR1 XR) as (rs & -> & RS). cbn [bind]. change (c_start (s_cur s)) with (pos_of s).
      rewrite search_range_ok by (rewrite B1; lia). cbn [bind].
      destruct (tree_not_total root (pos_of s) rs t1 s1 ST1 ltac:(lia)) as (extra & t3 & TN & EX). rewrite TN. cbn [bind].
      eexists _, _, s1. split; [reflexivity|]. splits; auto. intros hi HB. apply BB in HB. pose proof (bound_le _ _ _ ST1 HB).
      destruct (RR hi HB) as [FR2 _]. cbn [res_ok]. split.
      * apply Forall_app; split; auto. apply extra_fit; auto; lia.
      * apply Exists_app. auto.
    + eexists _, _, s1. split; [reflexivity|]. splits; auto.
Qed.

Lemma opn_total g : opn g -> (match g with GTree t => tree_safe t | _ => True end) -> Forall item_safe (flat g) ->
  forall t s, st_ok s -> exists x t' s', check_group g t s = Val (x, t', s') /\ st_ok s'.
Proof.
  intros O TS F t s ST. assert (G : group_total (flat g) (check_group g)).
  { destruct g as [| | | | |tr]; try (apply leaf_total; auto; fail). intros t0 s0 ST0. exact (opn_tree_total tr O TS F t0 s0 ST0). }
  destruct (G t s ST) as (x & t' & s' & C & ST' & _). eauto.
Qed.
Lemma closing_total g : closing g -> (match g with GTree t => tree_safe t | _ => True end) -> Forall item_safe (flat g) ->
  forall t s, st_ok s -> exists x t' s', check_group g t s = Val (x, t', s') /\ st_ok s'.
Proof.
  intros O TS F t s ST. assert (EL : E <= length b) by apply (E_len b E BE).
  pose proof (st_pos b E BE s ST) as PE. pose proof (st_buf b E s ST) as B.
  destruct g as [ps| | | | |tr]; try (apply opn_total; auto; fail).
  - cbn [check_group]. unfold search_block. replace (c_end (s_cur s)) with E by (symmetry; apply ST).
    change (c_start (s_cur s)) with (Check_Proofs.pos_of s). rewrite search_range_ok by (rewrite B; lia). cbn [bind].
    destruct (check_not_spec LO b E ps (Check_Proofs.pos_of s) E s ST ltac:(lia)) as [X Y].
    destruct (absentb b ps (Check_Proofs.pos_of s) E (s_env s)); [rewrite X by auto|destruct (Y eq_refl) as [i ->]]; eauto 6.
  - destruct tr as [|root l r|root l|]; try (apply opn_total; auto; fail). destruct O as [_ O].
    cbn [flat flat_tree] in F. apply Forall_app in F as [FL _]. cbn [tree_safe] in TS.
    change (check_group (GTree (TBefore root l)) t s) with (check_tree (TBefore root l) t s). cbn [check_tree].
    destruct (group_expect _ _ t s (opn_tree_total l O TS FL) ST) as (gl & t1 & s1 & CL & ST1 & P1 & RL). rewrite CL. cbn [bind].
    pose proof (RL E (or_introl eq_refl)) as RL1.
    pose proof (st_pos b E BE s1 ST1) as PE1. fold (pos_of s1) in PE1. pose proof (st_buf b E s1 ST1) as B1.
    assert (CE : c_end (s_cur s1) = E) by apply ST1.
    destruct gl as [lm|lm|]; cbn [res_ok] in RL1; [| |contradiction].
    + destruct RL1 as [FL1 XL]. rewrite (nonempty_exists _ _ XL). cbn [assert bind]. unfold search_block. rewrite CE.
      change (c_start (s_cur s1)) with (pos_of s1). rewrite search_range_ok by (rewrite B1; lia). cbn [bind].
      destruct (tree_not_total root (pos_of s1) E t1 s1 ST1 ltac:(lia)) as (extra & t3 & TN & EX). rewrite TN. cbn [bind]. eauto 6.
    + rewrite CE. change (c_start (s_cur s)) with (Check_Proofs.pos_of s). rewrite search_range_ok by (rewrite B1; lia). cbn [bind].
      destruct (tree_not_total root (Check_Proofs.pos_of s) E t1 s1 ST1 ltac:(lia)) as (extra & t3 & TN & EX). rewrite TN. cbn [bind]. eauto 6.
Qed.

Definition group_safe (g : group L) : Prop := match g with GTree t => tree_safe t | _ => True end.
Lemma rshape_all (gs : list (group L)) : rshape (rev gs) -> Forall closing gs.
Proof.
  intros H. rewrite <- (rev_involutive gs). apply Forall_rev. destruct (rev gs) as [|g r]; [constructor|].
  destruct H as [C F]. constructor; auto. eapply Forall_impl; [|exact F]. apply opn_closing.
Qed.
Lemma check_groups_total gs : Forall closing gs -> Forall group_safe gs -> Forall item_safe (flats gs) -> forall t s, st_ok s ->
  exists t' s', check_groups gs t s = Val (t', s') /\ st_ok s'.
Proof.
  intros C. induction C as [|g gs CG C IH]; intros S F t s ST; cbn [check_groups]; [eauto|].
  inversion S; subst. change (flats (g :: gs)) with (flat g ++ flats gs) in F. apply Forall_app in F as [F1 F2].
  destruct (closing_total g CG ltac:(assumption) F1 t s ST) as (x & t1 & s1 & -> & ST1). cbn [bind]. apply IH; auto.
Qed.
End Total.

(** * From directives to groups *)
Section Trap.
Context {L : lang}.
Definition its_pos (its : list (item L)) : Prop := Exists (fun i => match i with INots _ => False | _ => True end) its.
Fixpoint its_not (its : list (item L)) : Prop :=
  match its with [] => False | INots _ :: r => its_pos r \/ its_not r | _ :: r => its_not r end.
Fixpoint its_trap (its : list (item L)) : Prop :=
  match its with [] => False | IDags _ _ :: r => its_not r \/ its_trap r | _ :: r => its_trap r end.
Lemma its_pos_app a c : its_pos (a ++ c) <-> its_pos a \/ its_pos c.
Proof. apply Exists_app. Qed.
Lemma its_not_app_r a c : its_not c -> its_not (a ++ c).
Proof. intros H. induction a as [|[] a IH]; cbn; auto. Qed.
Lemma its_not_app_l a c : its_not a -> its_not (a ++ c).
Proof. induction a as [|[] a IH]; cbn; auto; try contradiction. rewrite its_pos_app. tauto. Qed.
Lemma its_trap_app_r a c : its_trap c -> its_trap (a ++ c).
Proof. intros H. induction a as [|[] a IH]; cbn; auto. Qed.
Lemma its_trap_app_l a c : its_trap a -> its_trap (a ++ c).
Proof. induction a as [|[] a IH]; cbn; auto; try contradiction. intros [H|H]; auto using its_not_app_l. Qed.
Lemma its_trap_dag a c : Exists is_dag a -> its_not c -> its_trap (a ++ c).
Proof.
  intros H N. induction H as [i a D|i a H IH]; destruct i; cbn in *; try contradiction; auto. left. now apply its_not_app_r.
Qed.

Lemma leaf_pos (g : group L) : leaf g -> its_pos (flat g).
Proof.
  destruct g as [|ds|ds g'|rs|r n|]; cbn [leaf flat]; intros H; try contradiction; try (left; exact I). destruct rs; [congruence|]. left. exact I.
Qed.
Lemma dag_dec (its : list (item L)) : Forall (fun i => ~ is_dag i) its \/ Exists is_dag its.
Proof. induction its as [|i its IH]; [now left|]. destruct IH as [IH|IH]; [|now right; right]. destruct i; cbn; try (left; constructor; auto; fail). right. now left. Qed.
Lemma opn_safe : forall t : tree L, opn_tree t -> ~ its_trap (flat_tree t) -> tree_safe t.
Proof.
  fix IH 1. intros [g|root l r|root l|root r] O N.
  - exact I.
  - destruct r as [g| | |]; try contradiction. destruct O as (_ & OL & OG).
    change (flat_tree (TAround root l (TAll g))) with (flat_tree l ++ INots root :: flat g) in N.
    split; [|split; [|exact I]].
    + destruct (dag_dec (flat_tree l)) as [D|D]; auto. exfalso. apply N. apply its_trap_dag; auto. cbn. left. now apply leaf_pos.
    + apply (IH l OL). intros H. apply N. now apply its_trap_app_l.
  - contradiction.
  - destruct r; try contradiction. exact I.
Qed.
Lemma closing_safe (g : group L) : closing g -> ~ its_trap (flat g) -> group_safe g.
Proof.
  destruct g as [| | | | |t]; cbn [group_safe]; auto. intros C N. change (flat (GTree t)) with (flat_tree t) in N.
  destruct t as [| |root l|]; try (apply opn_safe; auto; fail). destruct C as [_ O]. cbn [tree_safe]. apply opn_safe; auto.
  intros H. apply N. cbn [flat_tree]. now apply its_trap_app_l.
Qed.
Lemma groups_safe (gs : list (group L)) : Forall closing gs -> ~ its_trap (flats gs) -> Forall group_safe gs.
Proof.
  intros C. induction C as [|g gs CG C IH]; intros N; constructor; change (flats (g :: gs)) with (flat g ++ flats gs) in N.
  - apply closing_safe; auto. intros H. apply N. now apply its_trap_app_l.
  - apply IH. intros H. apply N. now apply its_trap_app_r.
Qed.

Definition has_pos (ls : list (line L)) : Prop := exists p, In p ls /\ l_kind p <> KNot.
Definition has_not (ls : list (line L)) : Prop := exists mid n post, ls = mid ++ n :: post /\ l_kind n = KNot /\ has_pos post.
Lemma has_pos_cons l ls : has_pos ls -> has_pos (l :: ls).
Proof. intros (p & I & K). exists p. split; auto. now right. Qed.
Lemma has_not_cons l ls : has_not ls -> has_not (l :: ls).
Proof. intros (mid & n & post & -> & H). exists (l :: mid), n, post. auto. Qed.
Lemma trapped_cons l (ls : list (line L)) : trapped ls -> trapped (l :: ls).
Proof. intros (pre & d & mid & n & post & p & -> & H). exists (l :: pre), d, mid, n, post, p. auto. Qed.
Lemma items_cons l (ls : list (line L)) : items_of (l :: ls) = cons_line l (items_of ls).
Proof. reflexivity. Qed.
Lemma items_pos (ls : list (line L)) : its_pos (items_of ls) -> has_pos ls.
Proof.
  induction ls as [|l ls IH]; intros H; [inversion H|]. rewrite items_cons in H. unfold cons_line in H.
  assert (Y : l_kind l <> KNot -> has_pos (l :: ls)) by (intros K; exists l; split; auto; now left).
  destruct (l_kind l) eqn:K; try (apply Y; discriminate). apply has_pos_cons, IH.
  destruct (items_of ls) as [|[] its]; inversion H; subst; try contradiction; auto; now right.
Qed.
Lemma items_not (ls : list (line L)) : its_not (items_of ls) -> has_not ls.
Proof.
  induction ls as [|l ls IH]; intros H; [inversion H|]. rewrite items_cons in H. unfold cons_line in H.
  assert (N : l_kind l = KNot -> has_pos ls -> has_not (l :: ls)) by (intros K P; exists [], l, ls; auto).
  destruct (l_kind l) eqn:K; try (apply has_not_cons, IH; exact H; fail).
  - pose proof (items_pos ls) as IP. destruct (items_of ls) as [|[] its]; cbn in H.
    + destruct H as [H|[]]. apply Exists_nil in H as [].
    + destruct H as [H|H]; [apply N; auto; apply IP; now right|apply has_not_cons, IH; now right].
    + apply N; auto. apply IP. now left.
    + apply N; auto. apply IP. now left.
    + apply N; auto. apply IP. now left.
  - apply has_not_cons, IH. destruct (items_of ls) as [|[] its]; cbn in *; auto.
Qed.
Lemma items_trap (ls : list (line L)) : its_trap (items_of ls) -> trapped ls.
Proof.
  induction ls as [|l ls IH]; intros H; [inversion H|]. rewrite items_cons in H. unfold cons_line in H.
  destruct (l_kind l) eqn:K; try (apply trapped_cons, IH; exact H; fail).
  - apply trapped_cons, IH. destruct (items_of ls) as [|[] its]; cbn in *; auto; try tauto.
  - assert (T : its_not (items_of ls) -> trapped (l :: ls)).
    { intros N. destruct (items_not ls N) as (mid & n & post & -> & KN & p & P & KP). exists [], l, mid, n, post, p. auto 6. }
    destruct (items_of ls) as [|[] its]; cbn in H, T, IH; try (destruct H as [H|H]; [now apply T|apply trapped_cons, IH; auto]).
Qed.
Lemma items_next b E (ls : list (line L)) : E = length b \/ next_free ls -> Forall (item_safe b E) (items_of ls).
Proof.
  intros H. induction ls as [|l ls IH]; [constructor|]. rewrite items_cons. unfold cons_line.
  assert (F : Forall (item_safe b E) (items_of ls)) by (apply IH; destruct H as [H|H]; auto; right; intros x X; apply H; now right).
  destruct (l_kind l) eqn:K; try (constructor; cbn; auto; fail); auto.
  - constructor; auto. cbn. destruct H as [H|H]; auto. exfalso. apply (H l); [now left|auto].
  - destruct (items_of ls) as [|[] its]; inversion F; subst; repeat (constructor; auto).
  - destruct (items_of ls) as [|[] its]; inversion F; subst; repeat (constructor; auto).
Qed.
End Trap.

(** * Files *)
Section FileTotal.
Context {L : lang} (LO : lang_ok L) (LT : lang_total L).

Lemma part_total b E gs body t s : block_end_ok b E -> part_ok body gs -> ~ trapped body -> E = length b \/ next_free body ->
  st_ok b E s -> exists t' s', check_groups gs t s = Val (t', s') /\ st_ok (L:=L) b E s'.
Proof.
  intros BE ((G1 & G2) & _) NT NX ST. pose proof (rshape_all gs G1) as C. apply (check_groups_total LO LT); auto.
  - apply groups_safe; auto. rewrite G2. intros H. apply NT. now apply items_trap.
  - rewrite G2. now apply items_next.
Qed.

Lemma parts_total b (secs : list (section L)) bodies : forall gss is body gs lab lo hi i start t s,
  Forall2 part_ok bodies gss -> length is = length bodies ->
  part_ok body gs -> sec_groups secs lo hi gs ->
  (forall k gs', nth_error gss k = Some gs' -> exists p, nth_error secs (i + k) = Some (SBlock p gs')) ->
  spaced b start is -> start <= length b -> cursor_ok b (s_cur s) -> c_crlf (s_cur s) = false ->
  (forall ls, In ls (body :: bodies) -> ~ trapped ls) ->
  (forall before ls after, body :: bodies = before ++ ls :: after -> after <> [] -> next_free ls) ->
  exists t' s', check_blocks secs (blocks_from b (block_of lab (lo, hi) start) i is) t s = Val (t', s').
Proof.
  induction bodies as [|body2 bodies IH]; intros gss is body gs lab lo hi i start t s F2 LI PO SG NS SP SB CK CL NT NX.
  - destruct is; [|discriminate]. simpl blocks_from. cbn [check_blocks]. unfold block_of.
    destruct (check_block_groups b secs lo hi gs lab start None t s SG CK CL) as (s1 & S1 & S2 & S3 & ->); [simpl; lia|].
    simpl unwrap_or in S1.
    destruct (part_total b (length b) gs body (match lab with Some x => t_matched t x | None => t end) s1) as (t' & s' & C & _); auto.
    + left. reflexivity.
    + apply NT. now left.
    + rewrite C. cbn [bind]. eauto.
  - destruct is as [|x is]; [discriminate|]. inversion F2 as [|? gs2 ? gss' PO2 F2']; subst.
    destruct SP as ((e & LL & SE & BE) & LTx & SP').
    pose proof (prev_of_last b _ _ LL ltac:(lia)) as PE. simpl blocks_from. cbn [check_blocks]. unfold block_of, set_end. cbn [b_label b_secs b_start].
    rewrite PE. pose proof (E_len b e BE) as EL.
    destruct (check_block_groups b secs lo hi gs lab start (Some e) t s SG CK CL) as (s1 & S1 & S2 & S3 & ->); [simpl; lia|].
    simpl unwrap_or in S1.
    destruct (part_total b e gs body (match lab with Some x => t_matched t x | None => t end) s1) as (t1 & s2 & C & ST2); auto.
    + apply NT. now left.
    + right. apply (NX [] body (body2 :: bodies)); [reflexivity|discriminate].
    + rewrite C. cbn [bind]. destruct (eol_of_ok b (rstart (i_span x))) as (ER & _); [lia|].
      assert (SG2 : sec_groups secs i (i + 1) gs2).
      { right. split; auto. destruct (NS 0 gs2 eq_refl) as [p P]. rewrite Nat.add_0_r in P. eauto. }
      assert (NS2 : forall k gs', nth_error gss' k = Some gs' -> exists p, nth_error secs (S i + k) = Some (SBlock p gs')).
      { intros k gs' K. destruct (NS (S k) gs' K) as [p P]. exists p. replace (S i + k) with (i + S k) by lia. auto. }
      apply (IH gss' is body2 gs2 (Some x) i (i + 1) (S i) (eol_of b (rstart (i_span x))) t1 s2); auto; try lia; try apply ST2.
      * intros ls I. apply NT. now right.
      * intros bf ls af Q. apply (NX (body :: bf) ls af). now rewrite Q.
Qed.

Theorem filecheck_total allow imp f b e : lf_input b -> file_ok f ->
  (forall p, In p (map fst (f_blocks f)) -> solid p) -> room b imp f e -> calm imp f ->
  filecheck (L:=L) allow imp (file_lines f) b e <> Panic.
Proof.
  intros LF0 OK SO RM [NT NX]. unfold parts in NT, NX. pose proof OK as (NP & NB & NC).
  assert (NE2 : (file_lines f <> [] \/ imp <> None) \/ (file_lines f = [] /\ imp = None)).
  { destruct imp; [left; right; discriminate|]. destruct (file_lines f); [right; auto|left; left; discriminate]. }
  destruct NE2 as [NE2|[Q ->]]; [|rewrite Q; unfold filecheck; cbn; discriminate].
  assert (FS : Forall solid (map fst (f_blocks f))) by (apply Forall_forall; auto).
  pose proof (compile_file imp f OK NE2) as CF. unfold filecheck.
  destruct (anchoredb false (f_prefix f)); [|rewrite CF; discriminate].
  destruct CF as (pre & gss & GP & GB & PE & ->). cbn [bind].
  set (ps := map fst (f_blocks f)) in *. set (bodies := map (fun bl => implied imp ++ snd bl) (f_blocks f)) in *.
  assert (LG : length gss = length ps) by (unfold ps; rewrite map_length; symmetry; eapply Forall2_length; eauto).
  assert (SE : map (fun x => SBlock (fst (fst x)) (snd x)) (combine (f_blocks f) gss) = secs_of ps gss).
  { unfold secs_of, ps. clear. revert gss. induction (f_blocks f) as [|bl r IH]; intros [|g gss]; simpl; auto. now rewrite IH. }
  rewrite SE.
  assert (CBD : forall bl, In bl (f_blocks f) -> counts_ok (snd bl)).
  { intros bl I. apply Forall_forall. intros x X. apply NC. unfold file_lines. apply in_or_app. right.
    apply in_flat_map. exists bl. simpl; auto. }
  assert (CP : counts_ok (f_prefix f)).
  { apply Forall_forall. intros x X. apply NC. unfold file_lines. apply in_or_app. auto. }
  assert (F2 : Forall2 part_ok bodies gss).
  { unfold bodies. revert GB NB CBD. clear. intros GB NB CBD. induction GB as [|bl gs bls gss G GB IH]; constructor.
    - split; [exact G|]. split; (apply Forall_app; split; [destruct imp; repeat constructor; discriminate|]).
      + apply no_labels_unlabelled, NB. simpl; auto.
      + apply CBD. simpl; auto.
    - apply IH; intros; [apply NB|apply CBD]; simpl; auto. }
  assert (PP : part_ok (with_implicit imp (f_prefix f)) pre).
  { split; [exact GP|]. split; [apply with_implicit_unlabelled|apply with_implicit_counts]; auto. }
  destruct (lf_input_new b LF0) as (c & CN & CL). destruct (cursor_new_ok b c CN CL) as (CK & CS & CE & NN).
  unfold check_input. rewrite CN. cbn [bind].
  destruct (negb allow && match b with [] => true | _ => false end)%bool; [discriminate|].
  set (secs := map SGroup pre ++ secs_of ps gss).
  assert (AP : at_pos b 0 (mkState (L:=L) c e)) by (split; [exact CK|]; split; [exact CL|]; split; [exact CS|exact CE]).
  assert (SPACED : forall is, labels_at b e 0 ps is -> with_implicit imp (f_prefix f) <> [] -> spaced b 0 is).
  { intros is LA W. eapply labels_spaced; eauto; [lia|]. right. right. split; auto. intros x HX.
    destruct RM as [RM|RM]; [contradiction|]. destruct (head_labels _ _ _ _ _ _ LA HX) as (p & en' & HP & FD).
    eapply RM; eauto. }
  assert (NS : forall k gs', nth_error gss k = Some gs' -> exists p, nth_error secs (length pre + k) = Some (SBlock p gs')).
  { intros k gs' K. assert (KL : k < length ps) by (rewrite <- LG; apply nth_error_Some; congruence).
    destruct (nth_error ps k) as [p|] eqn:P; [|apply nth_error_None in P; lia]. exists p. unfold secs.
    rewrite nth_error_app2 by (rewrite map_length; lia). rewrite map_length. replace (length pre + k - length pre) with k by lia.
    unfold secs_of. erewrite map_nth_error with (d := (p, gs')); [reflexivity|].
    now apply nth_error_combine. }
  assert (LB : length bodies = length ps) by (unfold bodies, ps; now rewrite !map_length).
  clearbody ps bodies.
  assert (RESET : forall s1 : state L, cursor_ok b (s_cur s1) -> c_crlf (s_cur s1) = false ->
     exists c', reset (s_cur s1) = Val c' /\ cursor_ok b c' /\ c_crlf c' = false).
  { intros s1 K1 K2. destruct (reset_ok b (s_cur s1)) as (c' & R1 & R2 & R3 & _); auto; [apply K1|]. eauto. }
  destruct (with_implicit imp (f_prefix f)) as [|w ws] eqn:W.
  - destruct PE as [_ PE]. specialize (PE eq_refl). subst pre. unfold secs in *. clear secs. simpl app in *. simpl length in *.
    destruct ps as [|p ps'].
    { exfalso. destruct gss; [|discriminate]. inversion GB as [FB|]; subst.
      unfold with_implicit in W. apply app_eq_nil in W as [W1 W2].
      assert (imp = None) by (destruct imp; [discriminate|auto]). subst imp.
      destruct NE2 as [NE2|NE2]; [|congruence]. apply NE2. unfold file_lines. rewrite <- FB. simpl. rewrite app_nil_r.
      destruct (f_prefix f); [auto|discriminate]. }
    destruct gss as [|gs1 gss']; [discriminate|]. destruct bodies as [|body1 bodies']; [discriminate|].
    inversion FS as [|? ? SO1 FS']; subst. inversion F2 as [|? ? ? ? PO1 F2']; subst.
    assert (DB : discover_blocks (secs_of (p :: ps') (gs1 :: gss')) (mkState c e) =
      (do (rblocks, errors, s1) <- discover 0 (SBlock p gs1 :: secs_of ps' gss') (mkState c e) [] [];
       do c <- reset (s_cur s1); let s2 := mkState c (s_env s1) in
       Val (match errors with [] => inl (rev rblocks) | _ => inr errors end, s2))) by reflexivity.
    rewrite DB. clear DB.
    destruct (label_step LO b 0 p gs1 (secs_of ps' gss') (mkState c e) 0 [] [] AP SO1) as
      [(x & en1 & FX & s2 & A2 & E2 & LTx & _ & DS)|(NF & DS)]; rewrite DS; simpl s_env in *.
    + simpl end_latest. assert (LG' : length gss' = length ps') by (simpl in LG; lia).
      destruct (eol_of_ok b (rstart (i_span x))) as (ER & NL & ED); [lia|].
      set (cur := mkBlock (Some x) (0, 0 + 1) (Some (eol_of b (rstart (i_span x)))) None).
      destruct (discover_total LO b ps' gss' FS' LG' 1 s2 _ [cur] [] A2) as (rb' & er' & s3 & D3 & E3 & K3 & C3 & IM).
      destruct (RESET s3 K3 C3) as (c3 & R3 & R3a & R3b). fold cur. rewrite D3. cbn [bind]. rewrite R3. cbn [bind].
      destruct er' as [|er er']; [|discriminate]. destruct (IM eq_refl) as (is' & LA).
      destruct (discover_found LO b ps' gss' FS' LG' 1 s2 _ cur [] [] A2 ltac:(discriminate) is' LA) as (s4 & D4 & _).
      rewrite D3 in D4. injection D4 as -> ->. rewrite app_nil_r, rev_involutive.
      assert (SP : spaced b (eol_of b (rstart (i_span x))) is') by (eapply labels_spaced; eauto; [lia|destruct ED; auto]).
      destruct (parts_total b (secs_of (p :: ps') (gs1 :: gss')) bodies' gss' is' body1 gs1 (Some x) 0 (0 + 1) 1
           (eol_of b (rstart (i_span x))) test_new (mkState c3 (s_env s4)) F2') as (t' & s' & X); auto.
      * rewrite (labels_len _ _ _ _ _ LA). simpl in LB. lia.
      * right. split; auto. exists p. reflexivity.
      * intros k gs' K. exact (NS (S k) gs' K).
      * apply ER.
      * intros ls I. apply NT. now right.
      * intros bf ls af Q. apply (NX ([] :: bf) ls af). now rewrite Q.
      * unfold block_of in X. fold cur in X. rewrite X. discriminate.
    + destruct (discover_total LO b ps' gss' FS' ltac:(simpl in LG; lia) 1 (mkState c e) 0 [mkBlock None (0, 0 + 1) None None] ([] ++ [ENone]) AP)
        as (rb' & er' & s3 & D3 & E3 & K3 & C3 & IM).
      destruct (RESET s3 K3 C3) as (c3 & R3 & _). rewrite D3. cbn [bind]. rewrite R3. cbn [bind].
      apply discover_errors in D3 as (more & ->). simpl. discriminate.
  - assert (PNE : pre <> []) by (intros Q; apply PE in Q; discriminate).
    assert (DB : discover_blocks secs (mkState c e) =
      (do (rblocks, errors, s1) <- discover 0 secs (mkState c e) [mkBlock None (0, length pre) (Some 0) None] [];
       do c <- reset (s_cur s1); let s2 := mkState c (s_env s1) in
       Val (match errors with [] => inl (rev rblocks) | _ => inr errors end, s2))).
    { apply discover_blocks_first; auto. }
    rewrite DB. clear DB. unfold secs at 1. rewrite discover_groups. simpl plus.
    set (cur := mkBlock None (0, length pre) (Some 0) None).
    destruct (discover_total LO b ps gss FS LG (length pre) (mkState c e) 0 [cur] [] AP) as (rb' & er' & s3 & D3 & E3 & K3 & C3 & IM).
    destruct (RESET s3 K3 C3) as (c3 & R3 & R3a & R3b). rewrite D3. cbn [bind]. rewrite R3. cbn [bind].
    destruct er' as [|er er']; [|discriminate]. destruct (IM eq_refl) as (is' & LA). simpl s_env in LA.
    destruct (discover_found LO b ps gss FS LG (length pre) (mkState c e) _ cur [] [] AP ltac:(discriminate) is' LA) as (s4 & D4 & _).
    rewrite D3 in D4. injection D4 as -> ->. rewrite app_nil_r, rev_involutive.
    assert (SG : sec_groups secs 0 (length pre) pre).
    { left. split; [|lia]. rewrite Nat.sub_0_r. simpl skipn. unfold secs. rewrite <- (map_length SGroup pre), firstn_app, Nat.sub_diag, firstn_all. simpl. apply app_nil_r. }
    destruct (parts_total b secs bodies gss is' (w :: ws) pre None 0 (length pre) (length pre)
           0 test_new (mkState c3 (s_env s4)) F2) as (t' & s' & X); auto.
    + rewrite (labels_len _ _ _ _ _ LA). lia.
    + apply (SPACED is' LA). discriminate.
    + lia.
    + unfold block_of in X. fold cur in X. rewrite X. discriminate.
Qed.

(** Files without labels and without directives that look at the ends of lines, on any input. *)
Theorem filecheck_total_free allow imp (ls : list (line L)) b e : line_free ls -> file_ok (mkFile ls []) -> calm imp (mkFile ls []) ->
  filecheck (L:=L) allow imp ls b e <> Panic.
Proof.
  intros FR OK [NT _].
  assert (NE2 : (ls <> [] \/ imp <> None) \/ (ls = [] /\ imp = None)).
  { destruct imp; [left; right; discriminate|]. destruct ls; [right; auto|left; left; discriminate]. }
  destruct NE2 as [NE2|[-> ->]]; [|unfold filecheck; cbn; discriminate].
  assert (NE1 : (b <> [] \/ allow = true) \/ (b = [] /\ allow = false)).
  { destruct b; [destruct allow; auto|left; left; discriminate]. }
  destruct NE1 as [NE1|[-> ->]].
  - destruct (free_run allow imp ls b e FR OK NE1 NE2) as (pre & s0 & sf & PO & PI & RUN & SI & ST & _).
    rewrite RUN. pose proof (check_groups_sim pre PI test_new _ _ SI) as RS'.
    destruct (part_total b (length b) pre (with_implicit imp ls) test_new sf) as (t' & s' & C & _); auto.
    + left. reflexivity.
    + apply NT. now left.
    + rewrite C in RS'. inversion RS'; subst. discriminate.
  - unfold filecheck. pose proof (compile_file imp (mkFile ls []) OK) as CF.
    assert (FL : file_lines (mkFile ls []) = ls) by (unfold file_lines; cbn; apply app_nil_r). rewrite FL in CF. specialize (CF NE2).
    destruct (anchoredb false (f_prefix (mkFile ls []))); [destruct CF as (pre & gss & _ & _ & _ & ->)|rewrite CF; discriminate]. discriminate.
Qed.
End FileTotal.
