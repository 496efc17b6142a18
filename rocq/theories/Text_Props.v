(** Properties C08-C11: ranges, newline searches, white space. *)
From Verif Require Import Base Text_Model Text_Spec Text_Proofs.
From Coq Require Import String.

(** C08. Bounds resolve to the range they denote, or to an error iff that range is inverted or
    sticks out of the allowed range. *)
Theorem C08_bounds : forall s e allowed r,
  range_from_bounds s e allowed = inl r <->
  begins s allowed (rstart r) /\ stops e allowed (rend r) /\
  rstart r <= rend r /\ rstart allowed <= rstart r /\ rend r <= rend allowed.
Proof. exact range_from_bounds_spec. Qed.
Print Assumptions C08_bounds.
Theorem C08_bounds_never_stick_out : forall s e allowed r,
  range_from_bounds s e allowed = inl r ->
  forall n, rstart r <= n < rend r ->
    rstart allowed <= n < rend allowed /\ above s n /\ below e n.
Proof.
  intros s e a r H n Hn. apply range_from_bounds_spec in H as (B & S & L & L1 & L2).
  repeat split; try lia.
  - destruct s; cbn in *; auto; apply B; lia.
  - destruct e; cbn in *; auto; apply S; lia.
Qed.
Print Assumptions C08_bounds_never_stick_out.
Theorem C08_error_reports_request : forall s e allowed x y,
  range_from_bounds s e allowed = inr (x, y) -> begins s allowed x /\ stops e allowed y /\
  (y < x \/ x < rstart allowed \/ rend allowed < y).
Proof.
  intros s e a x y. unfold range_from_bounds. cbv zeta.
  destruct (_ || _ || _)%bool eqn:C; [|discriminate]. intros E; inversion E; subst.
  split; [apply resolve_start_begins|]. split; [apply resolve_end_stops|].
  rewrite !orb_true_iff, !Nat.ltb_lt in C. tauto.
Qed.
Print Assumptions C08_error_reports_request.
Example C08_example :
  range_from_bounds (Excluded 2) (Included 5) (mkRange 1 6) = inl (mkRange 3 6) /\
  range_from_bounds (Included 5) (Excluded 4) (mkRange 0 9) = inr (5, 4) /\
  range_from_bounds Unbounded (Included 6) (mkRange 1 6) = inr (1, 7).
Proof. repeat split. Qed.

(** With defaults for the missing bounds, the same without a range that must not be left; an inverted range aborts. *)
Theorem C08_defaults : forall s e ds de r,
  range_from_bounds_with_defaults s e ds de = Some r <-> begins s (mkRange ds de) (rstart r) /\ stops e (mkRange ds de) (rend r) /\ rstart r <= rend r.
Proof.
  intros s e ds de r. unfold range_from_bounds_with_defaults, range_new.
  pose proof (resolve_start_begins s (mkRange ds de)) as B. pose proof (resolve_end_stops e (mkRange ds de)) as S0. cbn [rstart rend] in B, S0. split.
  - destruct (Nat.leb_spec (resolve_start s ds) (resolve_end e de)) as [L|]; [|discriminate]. intros [= <-]. cbn [rstart rend]. auto.
  - intros (B' & S' & L). rewrite (begins_unique _ _ _ _ B B'), (stops_unique _ _ _ _ S0 S'). destruct (Nat.leb_spec (rstart r) (rend r)); [now destruct r|lia].
Qed.
Print Assumptions C08_defaults.
(** C09 is false: the unit step of every integer type is 0 (range.rs:19), so popping never
    shrinks the range; an empty range still yields an element. *)
Theorem C09_refuted : forall r, rstart r <= rend r -> pop_front r = (Some (rstart r), r).
Proof.
  intros [s e] H. unfold pop_front, ONE. cbn in *. rewrite Nat.add_0_r.
  apply Nat.leb_le in H. now rewrite H.
Qed.
Print Assumptions C09_refuted.
Theorem C09_back_refuted : forall r, rstart r < rend r ->
  pop_back r = (Some (rend r), r) /\ ~ In (rend r) (elements r).
Proof.
  intros r H. split.
  - unfold pop_back, ONE. destruct (Nat.eqb_spec (rstart r) (rend r)); [lia|].
    rewrite Nat.sub_0_r. now destruct r.
  - rewrite elements_in. lia.
Qed.
Print Assumptions C09_back_refuted.
(** What holds of consuming ranges: [shrink_front] drops exactly the first n elements. *)
Theorem C09_shrink_front_partial : forall r n, wf_range r ->
  wf_range (shrink_front r n) /\ elements (shrink_front r n) = skipn n (elements r).
Proof. exact shrink_front_elements. Qed.
Print Assumptions C09_shrink_front_partial.
(** [truncate] keeps the first n elements, but contrary to its documentation it also aborts when
    the length does not change (range.rs:139). *)
Theorem C09_truncate_partial : forall r n r', truncate r n = Some r' ->
  wf_range r' /\ elements r' = firstn n (elements r) /\ List.length (elements r') = n.
Proof. exact truncate_elements. Qed.
Print Assumptions C09_truncate_partial.
Theorem C09_truncate_same_length_refuted : forall r, truncate r (range_len r) = None.
Proof. intros r. unfold truncate. now rewrite Nat.ltb_irrefl. Qed.
Print Assumptions C09_truncate_same_length_refuted.
Theorem C09_contains : forall r n, range_contains r n = true <-> In n (elements r).
Proof. exact contains_spec. Qed.
Print Assumptions C09_contains.
Theorem C09_empty : forall r, range_is_empty r = true <-> elements r = [].
Proof.
  intros r. unfold range_is_empty, elements. destruct (Nat.ltb_spec (rstart r) (rend r)) as [L|L]; cbn [negb].
  - split; [discriminate|]. replace (rend r - rstart r) with (S (rend r - rstart r - 1)) by lia. discriminate.
  - replace (rend r - rstart r) with 0 by lia. split; reflexivity.
Qed.
Print Assumptions C09_empty.
Example C09_example : wf_range (mkRange 3 7) /\ elements (shrink_front (mkRange 3 7) 2) = [5; 6] /\
  truncate (mkRange 3 7) 2 = Some (mkRange 3 5).
Proof. repeat split. cbv. lia. Qed.

(** Ranges are ordered by their start and then by their end: a total order in which only equal
    ranges are equivalent. *)
Theorem C09_order : forall a b,
  (range_cmp a b = Eq <-> a = b) /\
  (range_cmp a b = Lt <-> rstart a < rstart b \/ (rstart a = rstart b /\ rend a < rend b)) /\
  range_cmp b a = CompOpp (range_cmp a b).
Proof.
  intros [s e] [s' e']. unfold range_cmp. cbn [rstart rend]. rewrite (Nat.compare_antisym s s'), (Nat.compare_antisym e e').
  destruct (Nat.compare_spec s s'); cbn [CompOpp]; [subst; destruct (Nat.compare_spec e e'); subst; cbn|cbn|cbn];
    repeat split; intros; try congruence; try lia; try discriminate; try (match goal with H : mkRange _ _ = mkRange _ _ |- _ => injection H; lia end).
Qed.
Print Assumptions C09_order.

(** C10. For line feeds the searches return the first (last) one in the range, or nothing exactly
    when there is none. *)
Theorem C10_next_lf_partial : forall b r o, find_next_lf b r = Some o <->
  rstart r <= rend r <= List.length b /\
  match o with Some i => first_in b LF (rstart r) (rend r) i | None => none_in b LF (rstart r) (rend r) end.
Proof. intros b r [i|]; [apply find_next_lf_some|apply find_next_lf_none]. Qed.
Print Assumptions C10_next_lf_partial.
Theorem C10_prev_lf_partial : forall b r o, find_prev_lf b r = Some o <->
  rstart r <= rend r <= List.length b /\
  match o with Some i => last_in b LF (rstart r) (rend r) i | None => none_in b LF (rstart r) (rend r) end.
Proof. intros b r [i|]; [apply find_prev_lf_some|apply find_prev_lf_none]. Qed.
Print Assumptions C10_prev_lf_partial.
(** For CRLF files the property is false: the offset found is relative to the range
    (text/mod.rs:127-139), and the terminator at the very start of the range is missed. *)
Theorem C10_crlf_refuted : exists b r, first_crlf b (rstart r) (rend r) 5 /\ find_next_crlf b r <> Some (Some 5).
Proof.
  exists (of_string "ab" ++ [CR; LF] ++ of_string "c" ++ [CR; LF]), (mkRange 4 7).
  split; [|vm_compute; discriminate].
  repeat split; try (cbn; lia). intros j Hj [H1 _]. cbn in Hj. assert (j = 4) by lia. subst. discriminate H1.
Qed.
Print Assumptions C10_crlf_refuted.
(** It holds for searches from the beginning of the buffer. *)
Theorem C10_crlf_from_start_partial : forall b e, all_crlf b -> e <= List.length b ->
  forall o, find_next_crlf b (mkRange 0 e) = Some o ->
  match o with Some i => first_crlf b 0 e i | None => forall i, ~ (S i < e /\ crlf_pair b i) end.
Proof. exact find_next_crlf_zero. Qed.
Print Assumptions C10_crlf_from_start_partial.
(** The same backwards; of a text without a carriage return nothing is found, forwards or backwards, wherever the range begins. *)
Theorem C10_crlf_prev_from_start_partial : forall b e, all_crlf b -> e <= List.length b ->
  forall o, find_prev_crlf b (mkRange 0 e) = Some o ->
  match o with Some i => last_crlf b 0 e i | None => forall i, ~ (S i < e /\ crlf_pair b i) end.
Proof.
  intros b e A L o. unfold find_prev_crlf. destruct (slice_ok b (mkRange 0 e)) as [t SL]; cbn; try lia.
  rewrite SL. cbn. intros E; inversion E; subst; clear E.
  destruct (memrchr LF t) as [k|] eqn:M.
  - apply memrchr_some in M. apply (slice_last b _ t LF k SL) in M. cbn in M.
    destruct M as (H & B & N). destruct (A k B) as [K0 C].
    unfold crlf_at. destruct k as [|k]; [lia|]. cbn [Nat.sub] in *. rewrite Nat.sub_0_r in *.
    rewrite (byte_at_nth _ _ _ _ C), N.eqb_refl.
    repeat split; auto; try lia. intros j Hj K [J1 J2]. apply (N (S j)); [lia|auto].
  - cbn. apply memrchr_none in M. apply (slice_nonein b _ t LF SL) in M. cbn in M.
    intros i [Hi [_ X]]. apply (M (S i)); [lia|auto].
Qed.
Print Assumptions C10_crlf_prev_from_start_partial.
Theorem C10_crlf_none_partial : forall b r o, ~ In CR b -> find_next_crlf b r = Some o \/ find_prev_crlf b r = Some o -> o = None.
Proof.
  intros b r o N H. assert (X : forall i, crlf_at b i = None).
  { intros [[|i]|]; try reflexivity. cbn [crlf_at]. cbn [Nat.sub]. rewrite Nat.sub_0_r. destruct (N.eqb_spec (nth i b 0%N) CR) as [E|]; [|reflexivity]. exfalso. apply N.
    destruct (Nat.lt_ge_cases i (List.length b)) as [L|L]; [rewrite <- E; now apply nth_In|]. rewrite nth_overflow in E by lia. discriminate. }
  unfold find_next_crlf, find_prev_crlf in H. destruct (slice b r); cbn in H; [|now destruct H]. rewrite !X in H. destruct H as [H|H]; congruence.
Qed.
Print Assumptions C10_crlf_none_partial.
(** [Newline::next_from] finds the next line start correctly in both styles. *)
Theorem C10_newline_next : forall b o n, newline_next_from b o = Some n ->
  o <= List.length b /\
  ((exists i, first_in b LF o (List.length b) i /\ next_line_start n = S i /\
     ((nl_ty n = LeLf /\ nl_offset n = i /\ ~ (0 < i /\ byte_at b (i - 1) CR)) \/
      (nl_ty n = LeCrlf /\ S (nl_offset n) = i /\ byte_at b (nl_offset n) CR))) \/
   (none_in b LF o (List.length b) /\ nl_ty n = LeNone /\ nl_offset n = List.length b)).
Proof. exact next_from_spec. Qed.
Print Assumptions C10_newline_next.
(** ... while the backward search calls every line feed CRLF (text/mod.rs:104-107), so the line
    start computed from it is off by one, and [prev] never finds anything (text/mod.rs:85-87). *)
Theorem C10_newline_prev_refuted : exists b n, newline_prev_from b (List.length b) = Some n /\
  last_in b LF 0 (List.length b) 1 /\ next_line_start n <> 2.
Proof.
  exists (of_string "a" ++ [LF] ++ of_string "bc"), (mkNl 1 LeCrlf).
  split; [reflexivity|]. split; [|discriminate].
  repeat split; try (cbn; lia). intros j Hj. cbn in Hj.
  assert (j = 2 \/ j = 3) as [-> | ->] by lia; discriminate.
Qed.
Print Assumptions C10_newline_prev_refuted.
Theorem C10_newline_prev_whole_refuted : forall b, newline_prev b = Some (mkNl 0 LeNone).
Proof. intros b. reflexivity. Qed.
Print Assumptions C10_newline_prev_whole_refuted.
Example C10_example :
  find_next_lf (of_string "ab" ++ [LF] ++ of_string "c" ++ [LF]) (mkRange 1 5) = Some (Some 2) /\
  find_prev_lf (of_string "ab" ++ [LF] ++ of_string "c" ++ [LF]) (mkRange 0 4) = Some (Some 2) /\
  all_crlf (of_string "ab" ++ [CR; LF] ++ of_string "c").
Proof.
  repeat split; do 5 (destruct i as [|i]; [cbv in *; try discriminate; try lia; auto|]);
    destruct i; discriminate H.
Qed.

(** C11. *)
Theorem C11_canonicalize : forall s,
  let t := canonicalize_horizontal_whitespace s false in
  List.length t = List.length s /\
  (forall i c, nth_error s i = Some c ->
     (horizontal c -> nth_error t i = Some 32%N) /\ (~ horizontal c -> nth_error t i = Some c)) /\
  canonicalize_horizontal_whitespace t false = t.
Proof.
  intros s t. unfold t. rewrite canon_map. split; [apply map_length|]. split.
  - intros i c H. rewrite nth_error_map, H. cbn. rewrite <- horizontal_spec.
    destruct (is_non_canonical_horizontal_whitespace c); intuition congruence.
  - rewrite canon_map, map_map. apply map_ext. intros c.
    destruct (is_non_canonical_horizontal_whitespace c) eqn:E; [reflexivity|now rewrite E].
Qed.
Print Assumptions C11_canonicalize.
Theorem C11_strict : forall s, canonicalize_horizontal_whitespace s true = s.
Proof. reflexivity. Qed.
Print Assumptions C11_strict.
Example C11_example :
  canonicalize_horizontal_whitespace [97; 9; 160; 8203; 10; 12288]%N false = [97; 32; 32; 8203; 10; 32]%N.
Proof. reflexivity. Qed.

(** C54. An offset is a character boundary exactly when it is the end of the text or the byte there
    is not a continuation byte (10xxxxxx). *)
Theorem C54_char_boundary : forall b o, Forall (fun x => x < 256)%N b ->
  (is_char_boundary b o = true <-> o = List.length b \/ exists x, byte_at b o x /\ N.div x 64 <> 2%N).
Proof.
  intros b o F. unfold is_char_boundary, byte_at. destruct (nth_error b o) as [x|] eqn:E.
  - assert (X : (x < 256)%N) by (rewrite Forall_forall in F; apply F; eapply nth_error_In; eauto).
    assert (O : o < List.length b) by (apply nth_error_Some; congruence).
    rewrite orb_true_iff, !N.leb_le. pose proof (N.div_mod x 64 ltac:(lia)) as Q. pose proof (N.mod_lt x 64 ltac:(lia)) as M. split.
    + intros D. right. exists x. split; auto. revert Q M. generalize (N.div x 64) (N.modulo x 64). intros q m Q M. lia.
    + intros [D|(y & [= <-] & D)]; [lia|]. revert Q M D. generalize (N.div x 64) (N.modulo x 64). intros q m Q M D. lia.
  - rewrite Nat.eqb_eq. split; [auto|]. intros [D|(y & [=] & _)]; auto.
Qed.
Print Assumptions C54_char_boundary.
Example C54_example : is_char_boundary [195; 169; 97]%N 1 = false /\ is_char_boundary [195; 169; 97]%N 2 = true /\
  is_char_boundary [195; 169; 97]%N 0 = true /\ is_char_boundary [195; 169; 97]%N 4 = false.
Proof. repeat split. Qed.
