From Verif Require Import Base Text_Model Text_Spec Text_Proofs Cursor_Model Cursor_Spec.

Lemma line_end_unique b s i j : line_end b s i -> line_end b s j -> i = j.
Proof.
  intros ([? ?] & N1 & E1) ([? ?] & N2 & E2).
  destruct (Nat.lt_trichotomy i j) as [L|[L|L]]; auto.
  - destruct E1 as [->|E1]; [lia|]. exfalso; apply (N2 i); auto.
  - destruct E2 as [->|E2]; [lia|]. exfalso; apply (N1 j); auto.
Qed.

Lemma line_end_mono b s s' i : line_end b s i -> s <= s' <= i -> line_end b s' i.
Proof.
  intros ([? ?] & N1 & E1) [? ?]. split; [lia|]. split; auto. intros j J; apply N1; lia.
Qed.

Lemma line_end_exists b s : s <= length b -> exists i, line_end b s i.
Proof.
  intros L. destruct (find_next_lf b (mkRange s (length b))) as [[i|]|] eqn:E.
  - apply find_next_lf_some in E as (?&F). destruct F as (?&?&?). simpl in *.
    exists i. split; [lia|]. split; auto. 
  - apply find_next_lf_none in E as (?&F). simpl in *. exists (length b).
    split; [lia|]. split; auto.
  - exfalso. unfold find_next_lf in E. destruct (slice_ok b (mkRange s (length b))) as [t T]; simpl; auto.
    rewrite T in E. discriminate.
Qed.

Lemma bounds_of_ok b s e lo hi : begins s (mkRange 0 (length b)) lo -> stops e (mkRange 0 (length b)) hi ->
  lo <= hi <= length b -> bounds_of b s e = Val (mkRange lo hi).
Proof.
  intros B S L. unfold bounds_of, range_from_bounds.
  rewrite (begins_unique _ _ _ _ (resolve_start_begins s (mkRange 0 (length b))) B).
  rewrite (stops_unique _ _ _ _ (resolve_end_stops e (mkRange 0 (length b))) S). simpl.
  replace (hi <? lo) with false by (symmetry; apply Nat.ltb_ge; lia).
  replace (length b <? hi) with false by (symmetry; apply Nat.ltb_ge; lia).
  replace (lo <? 0) with false by (symmetry; apply Nat.ltb_ge; lia). reflexivity.
Qed.
Lemma bounds_of_val b s e r : bounds_of b s e = Val r ->
  begins s (mkRange 0 (length b)) (rstart r) /\ stops e (mkRange 0 (length b)) (rend r) /\
  rstart r <= rend r <= length b.
Proof.
  unfold bounds_of, range_from_bounds. intros H.
  pose proof (resolve_start_begins s (mkRange 0 (length b))).
  pose proof (resolve_end_stops e (mkRange 0 (length b))). simpl in *.
  destruct ((_ || _ || _)%bool) eqn:E in H; [discriminate|]. injection H as <-.
  apply orb_false_iff in E as [E E3]. apply orb_false_iff in E as [E1 E2].
  apply Nat.ltb_ge in E1, E2, E3. simpl. auto.
Qed.

Lemma begins_incl a r : begins (Included a) r a.
Proof. intros n; simpl; lia. Qed.
Lemma stops_excl a r : stops (Excluded a) r a.
Proof. intros n; simpl; lia. Qed.

Lemma search_range_ok c s e : s <= e <= length (c_buf c) -> search_range c s e = Val (mkRange s e).
Proof. intros L. apply bounds_of_ok; auto using begins_incl, stops_excl. Qed.
Lemma search_range_val c s e r : search_range c s e = Val r -> r = mkRange s e /\ s <= e <= length (c_buf c).
Proof.
  intros H. apply bounds_of_val in H as (B&S&L).
  pose proof (begins_unique _ _ _ _ B (begins_incl s _)).
  pose proof (stops_unique _ _ _ _ S (stops_excl e _)).
  destruct r; simpl in *; subst; auto.
Qed.

(** first line feed in [s, e), or [e] *)
Lemma next_lf_spec c s e lo hi : c_crlf c = false ->
  begins s (mkRange 0 (length (c_buf c))) lo -> stops e (mkRange 0 (length (c_buf c))) hi -> lo <= hi <= length (c_buf c) ->
  exists o, next_newline_in_range c s e = Val o /\
    forall i, line_end (c_buf c) lo i -> unwrap_or o hi = Nat.min i hi.
Proof.
  intros C B S L. unfold next_newline_in_range. rewrite (bounds_of_ok _ _ _ _ _ B S L), C. simpl.
  destruct (slice_ok (c_buf c) (mkRange lo hi)) as [t T]; simpl; try lia.
  unfold find_next_lf at 1. rewrite T. simpl. eexists. split; [reflexivity|].
  destruct (memchr LF t) as [k|] eqn:M; simpl.
  - intros i I. assert (F : find_next_lf (c_buf c) (mkRange lo hi) = Some (Some (lo + k))).
    { unfold find_next_lf. rewrite T. simpl. now rewrite M. }
    apply find_next_lf_some in F as (?&F). destruct F as (?&?&?). simpl in *.
    assert (LE : line_end (c_buf c) lo (lo + k)) by (split; [lia|split; auto]).
    rewrite (line_end_unique _ _ _ _ I LE). lia.
  - intros i I. assert (F : find_next_lf (c_buf c) (mkRange lo hi) = Some None).
    { unfold find_next_lf. rewrite T. simpl. now rewrite M. }
    apply find_next_lf_none in F as (?&F). simpl in *.
    destruct I as (?&?&[->|I]); [lia|]. destruct (Nat.lt_ge_cases i hi); [|lia].
    exfalso. apply (F i); auto. lia.
Qed.

Lemma eol_in_block_ok b c : c_buf c = b -> c_crlf c = false -> c_start c <= c_end c <= length b ->
  forall i, line_end b (c_start c) i -> eol_in_block c = Val (Nat.min i (c_end c)).
Proof.
  intros B C L i I. unfold eol_in_block. subst b.
  destruct (next_lf_spec c (Included (c_start c)) (Excluded (c_end c)) (c_start c) (c_end c)) as (o&->&F);
    auto using begins_incl, stops_excl. simpl. now rewrite (F i I).
Qed.

Lemma set_start_ok b c n : cursor_ok b c -> c_crlf c = false ->
  exists c', set_start c n = Val c' /\ cursor_ok b c' /\ c_crlf c' = false /\
    c_end c' = c_end c /\ c_start c' = Nat.min n (c_end c).
Proof.
  intros (B & L & i & I & E) C. unfold set_start.
  set (c' := mkCursor _ _ _ _).
  assert (c_buf c' = b) by auto.
  assert (c_start c' <= c_end c' <= length b).
  { cbn. split; [apply Nat.le_min_r|lia]. }
  destruct (line_end_exists b (c_start c')) as [i' I']; [lia|].
  pose proof (eol_in_block_ok b c' ltac:(auto) ltac:(auto) ltac:(auto) i' I') as EB.
  assert (ok : cursor_ok b (mkCursor (c_buf c) (c_block c') (Nat.min i' (c_end c')) (c_crlf c))).
  { split; auto. split; auto. exists i'. cbn. auto. }
  destruct (Nat.compare_spec n (c_start c)) as [Q|Q|Q].
  - exists c'. repeat match goal with |- _ /\ _ => split end; auto.
    split; auto. split; auto. exists i. assert (c_start c' = c_start c) as -> by (unfold c_start, c_end in *; cbn; lia). cbn; auto.
  - rewrite EB. simpl. eexists; repeat match goal with |- _ /\ _ => split end; eauto; apply ok.
  - destruct (Nat.ltb_spec (c_eol c) (c_start c')) as [P|P].
    + rewrite EB. simpl. eexists; repeat match goal with |- _ /\ _ => split end; eauto; apply ok.
    + exists c'. repeat match goal with |- _ /\ _ => split end; auto.
      assert (S' : c_start c <= c_start c') by (unfold c_start, c_end in *; cbn; lia).
      split; auto. split; auto. exists i. split; [|cbn; auto].
      apply (line_end_mono _ _ _ _ I). unfold end_of_line in E. lia.
Qed.

Lemma set_bounds_ok b c s e lo hi : c_buf c = b -> c_crlf c = false ->
  begins s (mkRange 0 (length b)) lo -> stops e (mkRange 0 (length b)) hi -> lo <= hi <= length b ->
  exists c', set_bounds c s e = Val c' /\ cursor_ok b c' /\ c_crlf c' = false /\
    c_start c' = lo /\ c_end c' = hi /\ line_end b lo (c_eol c').
Proof.
  intros B C Bg St L. unfold set_bounds. subst b. rewrite (bounds_of_ok _ _ _ _ _ Bg St L). simpl.
  unfold next_newline_from. set (c0 := mkCursor _ _ _ _).
  destruct (next_lf_spec c0 (Included lo) Unbounded lo (length (c_buf c))) as (o&->&F);
    auto using begins_incl; try (cbn; reflexivity). { cbn; lia. }
  simpl. destruct (line_end_exists (c_buf c) lo) as [i I]; [lia|].
  specialize (F i I). assert (unwrap_or o (length (c_buf c)) = i) as -> by (destruct I as [? _]; lia).
  eexists; split; [reflexivity|]. repeat match goal with |- _ /\ _ => split end; auto.
  split; auto. split; auto. exists i. auto.
Qed.

Lemma newline_next_ok b o : o <= length b -> exists n, newline_next_from b o = Some n.
Proof.
  intros L. unfold newline_next_from. destruct (slice_ok b (mkRange o (length b))) as [t ->]; simpl; eauto.
Qed.

Lemma newline_next_zero_lf b n : newline_next_from b 0 = Some n -> is_crlf_nl n = false -> line_end b 0 (nl_offset n).
Proof.
  unfold newline_next_from. intros H C. destruct (slice _ _) as [t|] eqn:T; [|discriminate].
  injection H as H.
  assert (t = b). { unfold slice in T. simpl in T. destruct (length b <=? length b); [|discriminate].
    rewrite Nat.sub_0_r, firstn_all in T. now injection T. }
  subst t. destruct (memchr LF b) as [k|] eqn:M.
  - apply memchr_some in M as (?&?&?).
    cbn zeta in H. change (0 + k) with k in H. destruct (0 <? k) eqn:Z; [destruct (N.eqb _ CR) eqn:Q|]; subst n; cbn [is_crlf_nl nl_ty nl_offset] in *; try discriminate;
    (split; [lia|split; auto]).
  - apply memchr_none in M. subst n. simpl. split; [lia|]. auto.
Qed.

Lemma reset_ok b c : c_buf c = b -> c_crlf c = false ->
  (forall n, newline_next_from b 0 = Some n -> is_crlf_nl n = false) ->
  exists c', reset c = Val c' /\ cursor_ok b c' /\ c_crlf c' = false /\ c_start c' = 0 /\ c_end c' = length b.
Proof.
  intros B C X. unfold reset. subst b. destruct (newline_next_ok (c_buf c) 0) as [n N]; [lia|].
  rewrite N. simpl. eexists; split; [reflexivity|]. repeat match goal with |- _ /\ _ => split end; auto.
  split; auto. split; [cbn; lia|]. exists (nl_offset n). split; auto. apply newline_next_zero_lf; auto.
Qed.

Lemma move_to_end_ok b c : cursor_ok b c -> cursor_ok b (move_to_end c).
Proof.
  intros (B & L & i & I & E). split; auto. split; [change (c_end c <= c_end c <= length b); lia|].
  destruct (line_end_exists b (c_end c)) as [j J]; [lia|].
  exists j. split; auto. right. destruct J as [? _]. change (c_end c = Nat.min j (c_end c)). lia.
Qed.

Definition pos_ok (b : bytes) (p : range * nat) : Prop := cursor_ok b (mkCursor b (fst p) (snd p) false).

Lemma run_op_ok b st o : cursor_ok b (fst st) -> c_crlf (fst st) = false -> pos_ok b (snd st) ->
  (forall n, newline_next_from b 0 = Some n -> is_crlf_nl n = false) -> valid_op b o ->
  exists st', run_op st o = Val st' /\ cursor_ok b (fst st') /\ c_crlf (fst st') = false /\ pos_ok b (snd st').
Proof.
  destruct st as [c p]. cbn [fst snd]. intros OK C P X V.
  assert (B : c_buf c = b) by apply OK.
  destruct o; simpl run_op.
  - destruct (set_start_ok b c n OK C) as (c'&->&?&?&_). simpl. eexists; split; [reflexivity|]. simpl; auto.
  - destruct V as (lo&hi&V1&V2&V3).
    destruct (set_bounds_ok b c s e lo hi B C V1 V2 V3) as (c'&->&?&?&_). simpl. eexists; split; [reflexivity|]. simpl; auto.
  - destruct (reset_ok b c B C X) as (c'&->&?&?&_). simpl. eexists; split; [reflexivity|]. simpl; auto.
  - eexists; split; [reflexivity|]. simpl. split; auto using move_to_end_ok.
  - eexists; split; [reflexivity|]. simpl. split; auto. split; auto. unfold pos_ok; simpl.
    destruct c as [cb cr ce cc]; simpl in *; subst; auto.
  - eexists; split; [reflexivity|]. simpl. split; auto. unfold pos_ok in P. unfold move_to.
    rewrite B, C; auto.
Qed.

Lemma run_ops_ok b l : forall st, cursor_ok b (fst st) -> c_crlf (fst st) = false -> pos_ok b (snd st) ->
  (forall n, newline_next_from b 0 = Some n -> is_crlf_nl n = false) -> Forall (valid_op b) l ->
  exists st', run_ops st l = Val st' /\ cursor_ok b (fst st') /\ c_crlf (fst st') = false.
Proof.
  induction l as [|o r IH]; intros st OK C P X V; simpl.
  - eauto.
  - inversion V; subst. destruct (run_op_ok b st o) as (st'&->&?&?&?); auto. simpl. apply IH; auto.
Qed.

Lemma cursor_new_ok b c : cursor_new b = Val c -> c_crlf c = false ->
  cursor_ok b c /\ c_start c = 0 /\ c_end c = length b /\
  forall n, newline_next_from b 0 = Some n -> is_crlf_nl n = false.
Proof.
  unfold cursor_new. destruct (newline_next_ok b 0) as [n N]; [lia|]. rewrite N. simpl.
  intros [= <-]; simpl. intros X. repeat match goal with |- _ /\ _ => split end; auto.
  - split; auto. split; [cbn; lia|]. exists (nl_offset n). split; auto. apply newline_next_zero_lf; auto.
  - intros n' [= <-]. auto.
Qed.
