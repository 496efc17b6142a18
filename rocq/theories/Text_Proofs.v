(** Proofs about ranges, newline searches and white space. *)
From Verif Require Import Base Text_Model Text_Spec.

Lemma resolve_start_begins s a : begins s a (resolve_start s (rstart a)).
Proof. destruct s; cbn; intros; lia. Qed.
Lemma resolve_end_stops e a : stops e a (resolve_end e (rend a)).
Proof. destruct e; cbn; intros; lia. Qed.
Lemma begins_unique s a x y : begins s a x -> begins s a y -> x = y.
Proof.
  destruct s; cbn; intros H1 H2; try lia.
  - pose proof (proj1 (H1 y) (proj2 (H2 y) (le_n y))). pose proof (proj1 (H2 x) (proj2 (H1 x) (le_n x))). lia.
  - pose proof (proj1 (H1 y) (proj2 (H2 y) (le_n y))). pose proof (proj1 (H2 x) (proj2 (H1 x) (le_n x))). lia.
Qed.
Lemma stops_unique s a x y : stops s a x -> stops s a y -> x = y.
Proof.
  destruct s; cbn; intros H1 H2; try lia.
  - pose proof (H1 x). pose proof (H2 x). pose proof (H1 y). pose proof (H2 y). lia.
  - pose proof (H1 x). pose proof (H2 x). pose proof (H1 y). pose proof (H2 y). lia.
Qed.

Lemma range_from_bounds_spec s e a r :
  range_from_bounds s e a = inl r <->
  begins s a (rstart r) /\ stops e a (rend r) /\
  rstart r <= rend r /\ rstart a <= rstart r /\ rend r <= rend a.
Proof.
  unfold range_from_bounds. cbv zeta.
  pose proof (resolve_start_begins s a) as B. pose proof (resolve_end_stops e a) as E.
  set (x := resolve_start s (rstart a)) in *. set (y := resolve_end e (rend a)) in *.
  destruct (Nat.ltb_spec y x), (Nat.ltb_spec x (rstart a)), (Nat.ltb_spec (rend a) y); cbn [orb];
    (split;
     [intros K; try discriminate K; inversion K; subst; cbn; repeat split; auto
     |intros (K1 & K2 & K3 & K4 & K5);
      pose proof (begins_unique _ _ _ _ K1 B); pose proof (stops_unique _ _ _ _ K2 E);
      try lia; destruct r; cbn in *; congruence]).
Qed.

Lemma elements_in r n : In n (elements r) <-> rstart r <= n < rend r.
Proof. unfold elements. rewrite in_seq. lia. Qed.
Lemma contains_spec r n : range_contains r n = true <-> In n (elements r).
Proof. unfold range_contains. rewrite elements_in, andb_true_iff, Nat.leb_le, Nat.ltb_lt. lia. Qed.

Lemma skipn_seq n a k : skipn n (seq a k) = seq (a + n) (k - n).
Proof.
  revert a k; induction n; intros a k.
  - cbn. now rewrite Nat.add_0_r, Nat.sub_0_r.
  - destruct k as [|k]; [now cbn|]. cbn [skipn seq]. rewrite IHn. f_equal; lia.
Qed.
Lemma firstn_seq n a k : firstn n (seq a k) = seq a (Nat.min n k).
Proof. revert a k; induction n; intros a [|k]; cbn; auto. now rewrite IHn. Qed.

Lemma shrink_front_elements r n : wf_range r ->
  wf_range (shrink_front r n) /\ elements (shrink_front r n) = skipn n (elements r).
Proof.
  unfold wf_range, shrink_front, elements. cbn. intros W. split; [lia|].
  rewrite skipn_seq. destruct (Nat.le_gt_cases (rstart r + n) (rend r)).
  - f_equal; lia.
  - rewrite Nat.min_r by lia. replace (rend r - rend r) with 0 by lia.
    now replace (rend r - rstart r - n) with 0 by lia.
Qed.
Lemma truncate_elements r n r' : truncate r n = Some r' ->
  wf_range r' /\ elements r' = firstn n (elements r) /\ length (elements r') = n.
Proof.
  unfold truncate, elements, wf_range, range_len. destruct (Nat.ltb_spec n (rend r - rstart r)); [|discriminate].
  intros E; inversion E; subst; cbn. rewrite firstn_seq, !seq_length. repeat split; try lia. f_equal; lia.
Qed.

(** ** memchr *)
Lemma memchr_some c b i : memchr c b = Some i <-> first_in b c 0 (length b) i.
Proof.
  revert i; induction b as [|x b IH]; intros i; cbn [memchr length].
  - split; [discriminate|]. intros [H _]. cbn in H. lia.
  - destruct (N.eqb_spec x c) as [->|Hx].
    + split.
      * intros E; inversion E; subst. repeat split; try lia.
      * intros (H & _ & N). destruct i; auto. exfalso. apply (N 0); [lia|reflexivity].
    + split.
      * destruct (memchr c b) as [k|] eqn:E; [|discriminate]. cbn. intros K; inversion K; subst.
        pose proof (proj1 (IH k) eq_refl) as (H & A & N).
        repeat split; try lia; auto.
        intros [|j] Hj; [unfold byte_at; cbn; congruence|]. apply (N j). lia.
      * intros (H & A & N). destruct i as [|i]; [unfold byte_at in A; cbn in A; congruence|].
        assert (F : first_in b c 0 (length b) i).
        { repeat split; try lia; auto. intros j Hj. apply (N (S j)). lia. }
        apply IH in F. now rewrite F.
Qed.
Lemma memchr_none c b : memchr c b = None <-> none_in b c 0 (length b).
Proof.
  induction b as [|x b IH]; cbn [memchr length].
  - split; auto. intros _ j H. lia.
  - destruct (N.eqb_spec x c) as [->|Hx].
    + split; [discriminate|]. intros N. exfalso. apply (N 0); [lia|reflexivity].
    + split.
      * destruct (memchr c b) eqn:E; [discriminate|]. intros _ [|j] Hj; [unfold byte_at; cbn; congruence|].
        apply (proj1 IH eq_refl j). lia.
      * intros N. assert (M : memchr c b = None) by (apply IH; intros j Hj; apply (N (S j)); lia).
        now rewrite M.
Qed.
Lemma memrchr_none c b : memrchr c b = None <-> none_in b c 0 (length b).
Proof.
  induction b as [|x b IH]; cbn [memrchr length].
  - split; auto. intros _ j H. lia.
  - destruct (memrchr c b) eqn:E.
    + split; [discriminate|]. intros N. assert (X : Some n = None) by (apply IH; intros j Hj; apply (N (S j)); lia).
      discriminate.
    + destruct (N.eqb_spec x c) as [->|Hx].
      * split; [discriminate|]. intros N. exfalso. apply (N 0); [lia|reflexivity].
      * split; auto. intros _ [|j] Hj; [unfold byte_at; cbn; congruence|]. apply (proj1 IH eq_refl j). lia.
Qed.
Lemma memrchr_some c b i : memrchr c b = Some i <-> last_in b c 0 (length b) i.
Proof.
  revert i; induction b as [|x b IH]; intros i; cbn [memrchr length].
  - split; [discriminate|]. intros [H _]. cbn in H. lia.
  - destruct (memrchr c b) as [k|] eqn:E.
    + pose proof (proj1 (IH k) eq_refl) as (H & A & N). split.
      * intros K; inversion K; subst. repeat split; try lia; auto.
        intros [|j] Hj; [lia|]. apply (N j). lia.
      * intros (H' & A' & N'). f_equal. destruct i as [|i].
        { exfalso. apply (N' (S k)); [lia|exact A]. }
        destruct (Nat.lt_trichotomy k i) as [L|[L|L]]; [|lia|].
        -- exfalso. apply (N i); [lia|exact A'].
        -- exfalso. apply (N' (S k)); [lia|exact A].
    + apply memrchr_none in E. destruct (N.eqb_spec x c) as [->|Hx].
      * split.
        -- intros K; inversion K; subst. repeat split; try lia. intros [|j] Hj; [lia|]. apply (E j). lia.
        -- intros (H & A & N). destruct i; auto. exfalso. apply (E i); [lia|exact A].
      * split; [discriminate|]. intros (H & A & N). destruct i; [unfold byte_at in A; cbn in A; congruence|].
        exfalso. apply (E i); [lia|exact A].
Qed.

(** ** slices *)
Lemma slice_some b r t : slice b r = Some t ->
  rstart r <= rend r /\ rend r <= length b /\ length t = rend r - rstart r /\
  forall i, i < rend r - rstart r -> nth_error t i = nth_error b (rstart r + i).
Proof.
  unfold slice. destruct (Nat.leb_spec (rstart r) (rend r)), (Nat.leb_spec (rend r) (length b));
    cbn [andb]; try discriminate. intros E; inversion E; subst.
  assert (L : length (firstn (rend r - rstart r) (skipn (rstart r) b)) = rend r - rstart r)
    by (rewrite firstn_length, skipn_length; lia).
  repeat split; auto. intros i Hi.
  rewrite <- (firstn_skipn (rstart r) b) at 2.
  rewrite nth_error_app2; rewrite firstn_length; [|lia].
  replace (rstart r + i - Nat.min (rstart r) (length b)) with i by lia.
  rewrite <- (firstn_skipn (rend r - rstart r) (skipn (rstart r) b)) at 2.
  rewrite nth_error_app1; [reflexivity|]. lia.
Qed.
Lemma slice_ok b r : rstart r <= rend r -> rend r <= length b -> exists t, slice b r = Some t.
Proof. intros H1 H2. unfold slice. apply Nat.leb_le in H1, H2. rewrite H1, H2. eexists; reflexivity. Qed.
Lemma slice_none b r : slice b r = None <-> rend r < rstart r \/ length b < rend r.
Proof.
  unfold slice. destruct (Nat.leb_spec (rstart r) (rend r)), (Nat.leb_spec (rend r) (length b));
    cbn [andb]; split; intros; try discriminate; try lia; auto.
Qed.

Lemma slice_first b r t c i : slice b r = Some t ->
  (first_in t c 0 (length t) i <-> first_in b c (rstart r) (rend r) (rstart r + i)).
Proof.
  intros S. apply slice_some in S as (L1 & L2 & Lt & Nt). unfold first_in, byte_at. rewrite Lt. split.
  - intros (H & A & N). rewrite Nt in A by lia. repeat split; try lia; auto.
    intros j Hj. specialize (N (j - rstart r) ltac:(lia)). rewrite Nt in N by lia.
    now replace (rstart r + (j - rstart r)) with j in N by lia.
  - intros (H & A & N). rewrite Nt by lia. repeat split; try lia; auto.
    intros j Hj. rewrite Nt by lia. apply N. lia.
Qed.
Lemma slice_last b r t c i : slice b r = Some t ->
  (last_in t c 0 (length t) i <-> last_in b c (rstart r) (rend r) (rstart r + i)).
Proof.
  intros S. apply slice_some in S as (L1 & L2 & Lt & Nt). unfold last_in, byte_at. rewrite Lt. split.
  - intros (H & A & N). rewrite Nt in A by lia. repeat split; try lia; auto.
    intros j Hj. specialize (N (j - rstart r) ltac:(lia)). rewrite Nt in N by lia.
    now replace (rstart r + (j - rstart r)) with j in N by lia.
  - intros (H & A & N). rewrite Nt by lia. repeat split; try lia; auto.
    intros j Hj. rewrite Nt by lia. apply N. lia.
Qed.
Lemma slice_nonein b r t c : slice b r = Some t ->
  (none_in t c 0 (length t) <-> none_in b c (rstart r) (rend r)).
Proof.
  intros S. apply slice_some in S as (L1 & L2 & Lt & Nt). unfold none_in, byte_at. rewrite Lt. split.
  - intros N j Hj. specialize (N (j - rstart r) ltac:(lia)). rewrite Nt in N by lia.
    now replace (rstart r + (j - rstart r)) with j in N by lia.
  - intros N j Hj. rewrite Nt by lia. apply N. lia.
Qed.

Lemma find_next_lf_some b r i : find_next_lf b r = Some (Some i) <->
  rstart r <= rend r <= length b /\ first_in b LF (rstart r) (rend r) i.
Proof.
  unfold find_next_lf. destruct (slice b r) as [t|] eqn:S; cbn.
  - pose proof (slice_some _ _ _ S) as (L1 & L2 & _). split.
    + destruct (memchr LF t) as [k|] eqn:M; cbn; [|discriminate]. intros E; inversion E; subst.
      split; [lia|]. apply memchr_some in M. now apply (slice_first b r t) in M.
    + intros [_ F]. assert (i = rstart r + (i - rstart r)) by (destruct F; lia).
      rewrite H in F. apply (slice_first b r t LF _ S), memchr_some in F. rewrite F. cbn. now rewrite <- H.
  - split; [discriminate|]. apply slice_none in S. lia.
Qed.
Lemma find_next_lf_none b r : find_next_lf b r = Some None <->
  rstart r <= rend r <= length b /\ none_in b LF (rstart r) (rend r).
Proof.
  unfold find_next_lf. destruct (slice b r) as [t|] eqn:S; cbn.
  - pose proof (slice_some _ _ _ S) as (L1 & L2 & _). split.
    + destruct (memchr LF t) as [k|] eqn:M; cbn; [discriminate|]. intros _. split; [lia|].
      apply memchr_none in M. now apply (slice_nonein b r t) in M.
    + intros [_ F]. apply (slice_nonein b r t LF S), memchr_none in F. now rewrite F.
  - split; [discriminate|]. apply slice_none in S. lia.
Qed.
Lemma find_prev_lf_some b r i : find_prev_lf b r = Some (Some i) <->
  rstart r <= rend r <= length b /\ last_in b LF (rstart r) (rend r) i.
Proof.
  unfold find_prev_lf. destruct (slice b r) as [t|] eqn:S; cbn.
  - pose proof (slice_some _ _ _ S) as (L1 & L2 & _). split.
    + destruct (memrchr LF t) as [k|] eqn:M; cbn; [|discriminate]. intros E; inversion E; subst.
      split; [lia|]. apply memrchr_some in M. now apply (slice_last b r t) in M.
    + intros [_ F]. assert (i = rstart r + (i - rstart r)) by (destruct F; lia).
      rewrite H in F. apply (slice_last b r t LF _ S), memrchr_some in F. rewrite F. cbn. now rewrite <- H.
  - split; [discriminate|]. apply slice_none in S. lia.
Qed.
Lemma find_prev_lf_none b r : find_prev_lf b r = Some None <->
  rstart r <= rend r <= length b /\ none_in b LF (rstart r) (rend r).
Proof.
  unfold find_prev_lf. destruct (slice b r) as [t|] eqn:S; cbn.
  - pose proof (slice_some _ _ _ S) as (L1 & L2 & _). split.
    + destruct (memrchr LF t) as [k|] eqn:M; cbn; [discriminate|]. intros _. split; [lia|].
      apply memrchr_none in M. now apply (slice_nonein b r t) in M.
    + intros [_ F]. apply (slice_nonein b r t LF S), memrchr_none in F. now rewrite F.
  - split; [discriminate|]. apply slice_none in S. lia.
Qed.

(** ** CRLF searches, when the range starts at the beginning of the buffer and every line feed
    is preceded by a carriage return *)
Definition all_crlf (b : bytes) : Prop := forall i, byte_at b i LF -> 0 < i /\ byte_at b (i - 1) CR.

Lemma byte_at_nth b i c d : byte_at b i c -> nth i b d = c.
Proof. unfold byte_at. intros H. now apply nth_error_nth. Qed.

Lemma find_next_crlf_zero b e : all_crlf b -> e <= length b ->
  forall o, find_next_crlf b (mkRange 0 e) = Some o ->
  match o with Some i => first_crlf b 0 e i | None => forall i, ~ (S i < e /\ crlf_pair b i) end.
Proof.
  intros A L o. unfold find_next_crlf. destruct (slice_ok b (mkRange 0 e)) as [t SL]; cbn; try lia.
  rewrite SL. cbn. intros E; inversion E; subst; clear E.
  destruct (memchr LF t) as [k|] eqn:M.
  - apply memchr_some in M. apply (slice_first b _ t LF k SL) in M. cbn in M.
    destruct M as (H & B & N). destruct (A k B) as [K0 C].
    unfold crlf_at. destruct k as [|k]; [lia|]. cbn [Nat.sub] in *. rewrite Nat.sub_0_r in *.
    rewrite (byte_at_nth _ _ _ _ C), N.eqb_refl.
    repeat split; auto; try lia. intros j Hj [J1 J2]. apply (N (S j)); [lia|auto].
  - cbn. apply memchr_none in M. apply (slice_nonein b _ t LF SL) in M. cbn in M.
    intros i [Hi [_ X]]. apply (M (S i)); [lia|auto].
Qed.

(** ** Newline *)
Lemma next_from_spec b o n : newline_next_from b o = Some n ->
  o <= length b /\
  ((exists i, first_in b LF o (length b) i /\ next_line_start n = S i /\
     ((nl_ty n = LeLf /\ nl_offset n = i /\ ~ (0 < i /\ byte_at b (i - 1) CR)) \/
      (nl_ty n = LeCrlf /\ S (nl_offset n) = i /\ byte_at b (nl_offset n) CR))) \/
   (none_in b LF o (length b) /\ nl_ty n = LeNone /\ nl_offset n = length b)).
Proof.
  unfold newline_next_from. destruct (slice b (mkRange o (length b))) as [t|] eqn:SL; [|discriminate].
  pose proof (slice_some _ _ _ SL) as (L1 & L2 & Lt & _). cbn in L1, L2, Lt.
  intros E; inversion E; subst; clear E. split; [lia|].
  destruct (memchr LF t) as [k|] eqn:M.
  - apply memchr_some in M. apply (slice_first b _ t LF k SL) in M. cbn in M.
    left. exists (o + k). destruct M as (H & B & N). split; [repeat split; auto; lia|].
    destruct (Nat.ltb_spec 0 (o + k)).
    + destruct (N.eqb_spec (nth (o + k - 1) b 0%N) CR) as [C|C]; cbn; (split; [lia|]).
      * right. repeat split; try lia. unfold byte_at.
        rewrite (nth_error_nth' b 0%N) by lia. now rewrite C.
      * left. repeat split; auto. intros [_ B']. apply C. now apply byte_at_nth.
    + split; [cbn; lia|]. left. cbn. repeat split; auto. lia.
  - right. apply memchr_none in M. apply (slice_nonein b _ t LF SL) in M. cbn in M. auto.
Qed.

(** ** White space *)
Lemma horizontal_spec c : is_non_canonical_horizontal_whitespace c = true <-> horizontal c.
Proof.
  unfold is_non_canonical_horizontal_whitespace, horizontal.
  rewrite !orb_true_iff, !N.eqb_eq, andb_true_iff, !N.leb_le. tauto.
Qed.
Lemma canon_map s : canonicalize_horizontal_whitespace s false =
  map (fun c => if is_non_canonical_horizontal_whitespace c then 32%N else c) s.
Proof.
  unfold canonicalize_horizontal_whitespace. cbn.
  destruct (existsb is_non_canonical_horizontal_whitespace s) eqn:E; auto.
  symmetry. rewrite <- (map_id s) at 2. apply map_ext_in. intros c Hc.
  destruct (is_non_canonical_horizontal_whitespace c) eqn:K; auto.
  assert (existsb is_non_canonical_horizontal_whitespace s = true) by (apply existsb_exists; eauto). congruence.
Qed.
