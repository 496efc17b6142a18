(** C96: line and column numbers; C97: spans. *)
From Coq Require Import Sorted.
From Verif Require Import Base Text_Model Span_Model Span_Spec Source_Model.
Open Scope list_scope.
Open Scope Z_scope.
Ltac splits := repeat match goal with |- _ /\ _ => split end.
Notation length := List.length.

Lemma top : u32_top = 2 ^ 32.
Proof. reflexivity. Qed.
Lemma top_val : 2 ^ 32 = 4294967296.
Proof. reflexivity. Qed.
Lemma i64_val : i64_top = 9223372036854775808.
Proof. reflexivity. Qed.
Lemma usize_val : usize_top = 18446744073709551616.
Proof. reflexivity. Qed.
Ltac vals := unfold index, number, is_u32, as_u32, as_i64 in *; rewrite ?top, ?top_val, ?i64_val, ?usize_val in *.
Ltac cmp := repeat (match goal with
  | |- context [?a <=? ?b] => destruct (Z.leb_spec a b)
  | |- context [?a <? ?b] => destruct (Z.ltb_spec a b)
  | |- context [?a =? ?b] => destruct (Z.eqb_spec a b)
  end; cbn [andb orb obind expect and_new or_default] in *; unfold number_new).

(** * C96 *)
(** Indices and numbers stand for each other: index [i] is number [i + 1], except the last index, which has no number. *)
Theorem number_of_index : forall checks,
  (forall i, index i -> i <> 2 ^ 32 - 1 -> index_number checks i = Ok (i + 1) /\ number_to_index (i + 1) = i /\ index_of_number checks (i + 1) = Ok i) /\
  (forall n, number n -> index (number_to_index n) /\ index_of_number checks n = Ok (number_to_index n) /\ index_number checks (number_to_index n) = Ok n).
Proof.
  intros checks. unfold index_number, number_to_index, index_of_number, op_u32, saturating_u32, nonzero_unchecked. split; intros x H; [intros N|]; splits; vals; cmp; try lia; f_equal; lia.
Qed.
Print Assumptions number_of_index.
(** Both are ordered alike. *)
Theorem numbers_ordered : forall n m, number n -> number m -> (n < m <-> number_to_index n < number_to_index m).
Proof. intros n m. unfold number_to_index, saturating_u32. vals. cmp; lia. Qed.
Print Assumptions numbers_ordered.
(** Checked operations are exact: they answer with the result if it is an index (a number), and with nothing otherwise. *)
Theorem checked_exact : forall n k, 0 <= k ->
  (index n -> exact_or_none index (n + k) (index_checked_add n k) /\ exact_or_none index (n - k) (index_checked_sub n k)) /\
  (number n -> exact_or_none number (n + k) (number_checked_add n k) /\ exact_or_none number (n - k) (number_checked_sub n k)).
Proof.
  intros n k K. unfold exact_or_none, index_checked_add, index_checked_sub, number_checked_add, number_checked_sub, checked_u32, and_new, number_new. split; intros H; split; intros m; vals; cmp; split; intros X; try discriminate; try lia; try (injection X as <-; lia); destruct X as [-> X]; f_equal; lia.
Qed.
Print Assumptions checked_exact.
Theorem checked_signed_exact : forall n k,
  (index n -> exact_or_none index (n + k) (index_checked_add_signed n k)) /\
  (number n -> exact_or_none number (n + k) (number_checked_add_signed n k)).
Proof.
  intros n k. unfold exact_or_none, index_checked_add_signed, number_checked_add_signed, checked_u32, and_new, number_new. split; intros H m; vals; cmp; split; intros X; try discriminate; try lia; try (injection X as <-; lia); destruct X as [-> X]; f_equal; lia.
Qed.
Print Assumptions checked_signed_exact.
(** Saturating operations answer with the nearest index (number). *)
Theorem saturating_nearest : forall n k, 0 <= k ->
  (index n -> nearest index (n + k) (index_saturating_add n k) /\ nearest index (n - k) (index_saturating_sub n k)) /\
  (number n -> (exists m, number_saturating_add n k = Ok m /\ nearest number (n + k) m) /\ nearest number (n - k) (number_saturating_sub n k)).
Proof.
  intros n k K. unfold nearest, index_saturating_add, index_saturating_sub, number_saturating_add, number_saturating_sub, saturating_u32, nonzero_unchecked, number_new, or_default.
  split; intros H; split; try split; try (intros j J); vals; cmp; try lia; eexists; (split; [reflexivity|]); split; try lia; intros j J; lia.
Qed.
Print Assumptions saturating_nearest.
Theorem saturating_signed_nearest : forall n k,
  (index n -> nearest index (n + k) (index_saturating_add_signed n k)) /\ (number n -> nearest number (n + k) (number_saturating_add_signed n k)).
Proof.
  intros n k. unfold nearest, index_saturating_add_signed, number_saturating_add_signed, saturating_u32, number_new, or_default. split; intros H; split; try (intros j J); vals; cmp; lia.
Qed.
Print Assumptions saturating_signed_nearest.
(** Operators: with overflow checks all are exact or abort; ... *)
Theorem operators_exact : forall n k, 0 <= k ->
  (index n -> exact_or_abort index (n + k) (index_add true n k) /\ exact_or_abort index (n - k) (index_sub true n k)) /\
  (number n -> exact_or_abort number (n + k) (number_add true n k) /\ exact_or_abort number (n - k) (number_sub n k)).
Proof.
  intros n k K. unfold exact_or_abort, index_add, index_sub, number_add, number_sub, op_u32, number_checked_sub, checked_u32, nonzero_unchecked, number_new. split; intros H; split; split; intros X; vals; cmp; try reflexivity; try lia; try discriminate.
Qed.
Print Assumptions operators_exact.
(** ... those with a signed operand, and the subtraction from a number, always. *)
Theorem signed_operators_exact : forall n k,
  (index n -> exact_or_abort index (n + k) (index_add_signed n k)) /\ (number n -> exact_or_abort number (n + k) (number_add_signed n k)).
Proof.
  intros n k. unfold exact_or_abort, index_add_signed, number_add_signed, index_checked_add_signed, number_checked_add_signed, checked_u32, number_new. split; intros H; split; intros X; vals; cmp; try reflexivity; try lia.
Qed.
Print Assumptions signed_operators_exact.
(** Without overflow checks the number of the last index is undefined behaviour, and so is an addition that reaches 2^32; other
    additions wrap. *)
Theorem last_number_refuted :
  index (2 ^ 32 - 1) /\ index_number false (2 ^ 32 - 1) = Bad /\ index_number true (2 ^ 32 - 1) = Aborts /\
  (forall n k, number n -> index k -> n + k = 2 ^ 32 -> number_add false n k = Bad) /\
  (forall n k, number n -> index k -> 2 ^ 32 < n + k -> number_add false n k = Ok (n + k - 2 ^ 32) /\ n + k - 2 ^ 32 < n).
Proof.
  splits; try reflexivity; try (vals; lia).
  - intros n k Hn Hk E. unfold number_add, op_u32. rewrite E. reflexivity.
  - intros n k Hn Hk E. unfold number_add, op_u32, nonzero_unchecked, as_u32. rewrite !top.
    assert (M : (n + k) mod 2 ^ 32 = n + k - 2 ^ 32) by (symmetry; apply (Z.mod_unique _ _ 1); vals; lia).
    rewrite M. splits; [|vals; lia]. vals. cmp; try reflexivity; lia.
Qed.
Print Assumptions last_number_refuted.
Example numbers_met : index 41 /\ number 42 /\ index_number false 41 = Ok 42 /\ number_checked_sub 42 42 = None /\ number_saturating_sub 42 50 = 1 /\ index_saturating_add 41 (2 ^ 32 - 1) = 2 ^ 32 - 1.
Proof. vals. splits; try reflexivity; lia. Qed.

(** Byte indices: moved by an offset they are the exact sum as long as it is an index, and else differ from it by a multiple of
    2^32; moved by an unsigned number, with overflow checks, they are exact or abort. *)
Theorem offsets_exact : forall a b, offset a -> offset b ->
  exact_or_abort offset (a + b) (offset_add true a b) /\ exact_or_abort offset (a - b) (offset_sub true a b) /\
  (* without overflow checks: around the end *)
  (exists c k, offset_add false a b = Ok c /\ offset c /\ c = a + b + k * 2 ^ 64) /\
  (exists c k, offset_sub false a b = Ok c /\ offset c /\ c = a - b + k * 2 ^ 64).
Proof.
  assert (W : forall n, offset (as_i64 n) /\ exists k, as_i64 n = n + k * 2 ^ 64).
  { intros n. unfold offset, as_i64, i64_top, usize_top. pose proof (Z.mod_pos_bound (n + 2 ^ 63) (2 ^ 64) eq_refl). split; [lia|].
    exists (- ((n + 2 ^ 63) / 2 ^ 64)). pose proof (Z.div_mod (n + 2 ^ 63) (2 ^ 64)). lia. }
  assert (T : forall n, exact_or_abort offset n (op_i64 true n)).
  { intros n. unfold exact_or_abort, op_i64, offset, i64_top. destruct (Z.leb_spec (- 2 ^ 63) n), (Z.ltb_spec n (2 ^ 63)); cbn [andb]; split; intros; (reflexivity || lia). }
  assert (F : forall n, exists c k, op_i64 false n = Ok c /\ offset c /\ c = n + k * 2 ^ 64).
  { intros n. unfold op_i64. destruct (Z.leb_spec (- i64_top) n) as [A|A], (Z.ltb_spec n i64_top) as [B|B]; cbn [andb];
      try (destruct (W n) as [X (k & Y)]; exists (as_i64 n), k; now splits). exists n, 0. splits; [reflexivity| |lia]. split; assumption. }
  intros a b _ _. unfold offset_add, offset_sub. splits; auto.
Qed.
Print Assumptions offsets_exact.
Theorem byte_indices : forall checks i o, index i -> - 2 ^ 62 <= o <= 2 ^ 62 ->
  (exists j, byte_add_offset checks i o = Ok j /\ index j /\ (exists k, j = i + o + k * 2 ^ 32) /\ (index (i + o) -> j = i + o)) /\
  (exists j, byte_sub_offset checks i o = Ok j /\ index j /\ (exists k, j = i - o + k * 2 ^ 32) /\ (index (i - o) -> j = i - o)) /\
  (0 <= o -> exact_or_abort index (i + o) (byte_add true i o) /\ exact_or_abort index (i - o) (byte_sub true i o)).
Proof.
  intros checks i o I B. assert (B' : - 4611686018427387904 <= o <= 4611686018427387904) by exact B.
  assert (M : forall x, index (x mod 2 ^ 32) /\ (exists k, x mod 2 ^ 32 = x + k * 2 ^ 32) /\ (index x -> x mod 2 ^ 32 = x)).
  { intros x. splits; [apply Z.mod_pos_bound; reflexivity| |apply Z.mod_small]. exists (- (x / 2 ^ 32)). rewrite Z.mod_eq by discriminate. lia. }
  assert (Q : forall x, -4611686018427387904 <= x <= 4611686022722355199 -> (- i64_top <=? x) && (x <? i64_top) = true) by (intros x X; vals; cmp; try reflexivity; lia).
  unfold byte_add_offset, byte_sub_offset, op_i64, as_u32. rewrite !top. assert (I' : 0 <= i < 4294967296) by exact I. rewrite !Q by lia. cbn [obind]. splits.
  - eexists. split; [reflexivity|]. apply M.
  - eexists. split; [reflexivity|]. apply M.
  - intros O. unfold exact_or_abort, byte_add, byte_sub, op_u32. split; split; intros X; vals; cmp; try reflexivity; lia.
Qed.
Print Assumptions byte_indices.

(** * C97 *)
(** A span is made exactly of the ranges that fit, and gives them back. *)
Theorem span_of_range : forall id lo hi s, 0 <= lo -> 0 <= hi ->
  (try_from_range id lo hi = Some s <-> lo < 2 ^ 32 /\ hi < 2 ^ 32 /\ s_source s = id /\ s_start s = lo /\ s_end s = hi) /\
  (try_from_range id lo hi = Some s -> lo <= hi -> into_range s = Ok (lo, hi) /\ (forall checks, span_len checks s = Ok (hi - lo))).
Proof.
  intros id lo hi s L H. assert (X : try_from_range id lo hi = Some s <-> lo < 2 ^ 32 /\ hi < 2 ^ 32 /\ s_source s = id /\ s_start s = lo /\ s_end s = hi).
  { unfold try_from_range, from_range_unchecked, as_u32. rewrite !top. destruct s as [i a c]. cbn [s_source s_start s_end]. destruct (Z.ltb_spec (2 ^ 32 - 1) lo), (Z.ltb_spec (2 ^ 32 - 1) hi); cbn [orb]; try (split; [discriminate|lia]).
    rewrite !Z.mod_small by lia. split; [intros E; injection E; intros; subst; splits; auto; lia|]. intros (_ & _ & -> & -> & ->). reflexivity. }
  split; [exact X|]. intros E Le. apply X in E as (A1 & A2 & A3 & A4 & A5). destruct s as [i a c]. cbn [s_source s_start s_end] in *. subst. unfold into_range, span_len, op_usize. cbn [s_start s_end]. vals. cmp; try lia. split; [reflexivity|]. intros checks. cmp; try reflexivity; lia.
Qed.
Print Assumptions span_of_range.
(** The unchecked way takes both ends modulo 2^32: beyond, it is another place, and the ends may change sides. *)
Theorem unchecked_span_refuted : forall id, let s := from_range_unchecked id (2 ^ 32 - 1) (2 ^ 32 + 3) in
  s = mkSpan id (2 ^ 32 - 1) 3 /\ into_range s = Aborts /\ span_len true s = Aborts /\ span_len false s <> Ok 4.
Proof. intros id s. subst s. splits; try reflexivity. intros E. vm_compute in E. discriminate E. Qed.
Print Assumptions unchecked_span_refuted.
(** Indexing a document by a span gives the bytes from its start to its end, if these are in the document in this order;
    otherwise it aborts. *)
Theorem span_selects : forall b s, 0 <= s_start s ->
  (forall t, slice_at b s = Ok t <-> stands b (s_start s) (s_end s) t) /\
  (slice_at b s = Aborts <-> s_end s < s_start s \/ Z.of_nat (length b) < s_end s).
Proof.
  intros b [id lo hi] L. unfold slice_at, stands. cbn [s_start s_end] in *. destruct (Z.leb_spec lo hi) as [A|A]; [destruct (Z.leb_spec hi (Z.of_nat (length b))) as [B|B]|]; cbn [andb].
  - split; [|split; [discriminate|lia]]. intros t. split.
    + intros E. injection E as <-. exists (firstn (Z.to_nat lo) b), (skipn (Z.to_nat (hi - lo)) (skipn (Z.to_nat lo) b)). rewrite firstn_skipn, firstn_skipn, !firstn_length, skipn_length. splits; [reflexivity|lia|lia].
    + intros (pre & post & -> & E1 & E2). rewrite <- E1, Nat2Z.id. rewrite skipn_app, skipn_all, Nat.sub_diag. cbn [skipn app]. replace (Z.to_nat (hi - Z.of_nat (length pre))) with (length t + 0)%nat by lia. rewrite firstn_app_2. cbn. now rewrite app_nil_r.
  - split; [|split; [lia|reflexivity]]. intros t. split; [discriminate|]. intros (pre & post & -> & E1 & E2). rewrite !app_length in B. lia.
  - split; [|split; [lia|reflexivity]]. intros t. split; [discriminate|]. intros (pre & post & -> & E1 & E2). lia.
Qed.
Print Assumptions span_selects.
(** The span of one place is empty and is refused beyond 2^32. *)
Theorem span_of_place : forall checks id off, 0 <= off ->
  (off < 2 ^ 32 -> exists s, spanned_at id off = Ok s /\ s_source s = id /\ span_is_empty checks s = Ok true /\ into_range s = Ok (off, off)) /\
  (2 ^ 32 <= off -> spanned_at id off = Aborts).
Proof.
  intros checks id off P. unfold spanned_at, span_is_empty, span_len, op_usize, into_range. rewrite top. split; intros H; destruct (Z.ltb_spec off (2 ^ 32)); try lia; [|reflexivity].
  eexists. split; [reflexivity|]. unfold span_at. cbn [s_source s_start s_end]. rewrite Z.sub_diag, !Z.leb_refl. splits; reflexivity.
Qed.
Print Assumptions span_of_place.
(** Moving a span: exact as long as both ends stay indices. *)
Theorem span_shifted : forall checks s o, whole_span s -> index (s_start s + o) -> index (s_end s + o) ->
  span_shift checks s o = Ok (mkSpan (s_source s) (s_start s + o) (s_end s + o)) /\
  span_extend checks s o = Ok (mkSpan (s_source s) (s_start s) (s_end s + o)).
Proof.
  intros checks [id lo hi] o [W1 W2] I1 I2. cbn [s_source s_start s_end] in *. unfold span_shift, span_extend, byte_add_offset, op_i64, as_u32. cbn [s_source s_start s_end]. rewrite !top.
  assert (Q : forall x, index x -> (- i64_top <=? x) && (x <? i64_top) = true) by (intros x X; vals; cmp; try reflexivity; lia).
  rewrite (Q _ I1), (Q _ I2). cbn [obind]. vals. rewrite !Z.mod_small by lia. split; reflexivity.
Qed.
Print Assumptions span_shifted.
(** Moving back undoes a move, whatever the way. *)
Theorem span_shifted_back : forall checks s o s', whole_span s -> - 2 ^ 62 <= o <= 2 ^ 62 -> span_shift checks s o = Ok s' -> whole_span s' /\ span_shift checks s' (- o) = Ok s.
Proof.
  intros checks [id lo hi] o s' [W1 W2] B E. cbn [s_start s_end] in *. assert (B' : - 4611686018427387904 <= o <= 4611686018427387904) by exact B.
  unfold span_shift, byte_add_offset, op_i64, as_u32 in *. cbn [s_source s_start s_end] in *. rewrite !top in *.
  assert (Q : forall x y, index x -> -4611686018427387904 <= y <= 4611686018427387904 -> (- i64_top <=? x + y) && (x + y <? i64_top) = true) by (intros x y X Y; vals; cmp; try reflexivity; lia).
  rewrite (Q lo o), (Q hi o) in E by (exact W1 || exact W2 || lia). cbn [obind] in E. injection E as <-. cbn [s_source s_start s_end].
  assert (I : forall x, index (x mod 2 ^ 32)) by (intros x; apply Z.mod_pos_bound; reflexivity). split; [split; apply I|].
  rewrite !Q by (apply I || lia). cbn [obind].
  assert (M : forall x, index x -> ((x + o) mod 2 ^ 32 + - o) mod 2 ^ 32 = x).
  { intros x X. rewrite Zplus_mod_idemp_l. replace (x + o + - o) with x by lia. apply Z.mod_small. exact X. }
  change (Z.pow_pos 2 32) with (2 ^ 32). now rewrite (M lo W1), (M hi W2).
Qed.
Print Assumptions span_shifted_back.
(** ... but a move beyond 2^32 goes round without notice: the span of the last byte, moved by one, ends before it starts. *)
Theorem shift_around_refuted : forall checks id, span_shift checks (mkSpan id (2 ^ 32 - 2) (2 ^ 32 - 1)) 1 = Ok (mkSpan id (2 ^ 32 - 1) 0) /\
  span_shift checks (mkSpan id 0 1) (-1) = Ok (mkSpan id (2 ^ 32 - 1) 0).
Proof. intros checks id. split; reflexivity. Qed.
Print Assumptions shift_around_refuted.
(** The length of a span that is not inverted, and whether it is empty *)
Theorem span_empty : forall checks s, whole_span s -> s_start s <= s_end s ->
  span_len checks s = Ok (s_end s - s_start s) /\ exists b, span_is_empty checks s = Ok b /\ (b = true <-> s_start s = s_end s).
Proof.
  intros checks [id lo hi] [W1 W2] L. cbn [s_source s_start s_end] in *. unfold span_is_empty, span_len, op_usize. cbn [s_start s_end]. vals.
  assert (E : (0 <=? hi - lo) && (hi - lo <? 2 ^ 64) = true) by (destruct (Z.leb_spec 0 (hi - lo)), (Z.ltb_spec (hi - lo) (2 ^ 64)); cbn; lia).
  change (2 ^ 64) with 18446744073709551616 in E. rewrite ?E. splits; [now rewrite ?usize_val, ?E|]. eexists. split; [rewrite ?usize_val, ?E; reflexivity|]. rewrite Z.eqb_eq. lia.
Qed.
Print Assumptions span_empty.
(** Spans are ordered by document, start and end: a total order. *)
Theorem spans_ordered : forall a c d,
  (span_cmp a c = Eq <-> a = c) /\ (span_cmp a c = Lt <-> earlier a c) /\ (span_cmp a c = Gt <-> earlier c a) /\
  (earlier a c -> earlier c d -> earlier a d) /\ (~ earlier a a).
Proof.
  intros [i l h] [i' l' h'] [i'' l'' h'']. unfold span_cmp, earlier. cbn [s_source s_start s_end].
  destruct (Z.compare_spec i i'), (Z.compare_spec l l'), (Z.compare_spec h h'); subst; splits; try (split; try discriminate; try reflexivity; try lia); try lia; try (intros E; injection E; lia).
Qed.
Print Assumptions spans_ordered.
(** Values with a span are compared, ordered and hashed as the values: where they stand has no effect. *)
Theorem spans_do_not_count : forall A B H (eqb : A -> A -> bool) cmp (hash : A -> H) (f : A -> B) v w s r,
  spanned_eqb eqb (mkSpanned s v) (mkSpanned r w) = eqb v w /\ spanned_cmp cmp (mkSpanned s v) (mkSpanned r w) = cmp v w /\
  spanned_hash hash (mkSpanned s v) = hash v /\
  ((forall x y, eqb x y = true -> hash x = hash y) -> spanned_eqb eqb (mkSpanned s v) (mkSpanned r w) = true -> spanned_hash hash (mkSpanned s v) = spanned_hash hash (mkSpanned r w)) /\
  (* [map] changes the value and keeps the place *)
  spanned_map f (mkSpanned s v) = mkSpanned s (f v).
Proof. intros. splits; try reflexivity. intros C E. now apply C. Qed.
Print Assumptions spans_do_not_count.

(** The table of the lines of a document: for a document of less than 2^32 bytes it lists where its lines begin, in order
    (and is what Source_Model, which counts without bounds, says it is); ... *)
Lemma starts_from_are t : forall n, 0 <= n -> n + Z.of_nat (length t) < 2 ^ 32 -> starts_from n t = map (fun o => n + Z.of_nat o + 1) (lf_offsets t 0).
Proof.
  induction t as [|c t IH]; intros n N B; [reflexivity|]. cbn [starts_from lf_offsets length] in *. rewrite Nat2Z.inj_succ in B. rewrite IH by lia.
  assert (Sh : forall t k, lf_offsets t (S k) = map S (lf_offsets t k)) by (clear; induction t as [|c t IH]; intros k; cbn [lf_offsets]; [reflexivity|]; rewrite !IH; destruct (c =? LF)%N; reflexivity).
  rewrite Sh. change LF with 10%N. assert (Me : map (fun o => n + 1 + Z.of_nat o + 1) (lf_offsets t 0) = map (fun o => n + Z.of_nat o + 1) (map S (lf_offsets t 0))) by (rewrite map_map; apply map_ext; intros; lia).
  destruct (c =? 10)%N; [|exact Me]. cbn [map]. f_equal; [|exact Me]. unfold as_u32. rewrite top, Z.mod_small by lia. lia.
Qed.
Lemma offsets_are t : forall k o, In o (lf_offsets t k) <-> exists pre post, t = pre ++ 10%N :: post /\ (o = k + length pre)%nat.
Proof.
  induction t as [|c t IH]; intros k o; cbn [lf_offsets]; [split; [intros []|intros ([|x pre] & post & E & _); discriminate]|].
  assert (R : In o (lf_offsets t (S k)) <-> exists pre post, c :: t = (c :: pre) ++ 10%N :: post /\ (o = k + length (c :: pre))%nat).
  { rewrite IH. split; intros (pre & post & E & ->); exists pre, post; cbn [length app] in *; (split; [congruence|lia]). }
  change LF with 10%N. destruct (N.eqb_spec c 10) as [->|N].
  - cbn [In]. rewrite R. split.
    + intros [<-|(pre & post & E & ->)]; [exists [], t; cbn [length app]; split; [reflexivity|lia]|exists (10%N :: pre), post; auto].
    + intros ([|x pre] & post & E & ->); [left; cbn [length]; lia|right]. cbn [app] in E. injection E as <- E. exists pre, post. cbn [app]. split; [now f_equal|reflexivity].
  - rewrite R. split; [intros (pre & post & E & ->); exists (c :: pre), post; auto|]. intros ([|x pre] & post & E & ->); cbn [app] in E; [congruence|]. injection E as <- E. exists pre, post. cbn [app]. split; [now f_equal|reflexivity].
Qed.
Lemma offsets_sorted t : forall k, StronglySorted lt (lf_offsets t k) /\ Forall (fun o => (k <= o)%nat) (lf_offsets t k).
Proof.
  induction t as [|c t IH]; intros k; cbn [lf_offsets]; [split; constructor|]. destruct (IH (S k)) as [S1 F1].
  assert (F2 : Forall (fun o => (k <= o)%nat) (lf_offsets t (S k))) by (eapply Forall_impl; [|exact F1]; cbn; intros; lia).
  destruct (c =? LF)%N; [|auto]. split; [constructor; [exact S1|]; eapply Forall_impl; [|exact F1]; cbn; intros; lia|constructor; [lia|exact F2]].
Qed.
Theorem lines_below_4g : forall t, Z.of_nat (length t) < 2 ^ 32 ->
  (forall n, In n (line_starts32 t) <-> begins t n) /\ StronglySorted Z.lt (line_starts32 t) /\
  line_starts32 t = map Z.of_nat (compute_line_starts t None).
Proof.
  intros t B. unfold line_starts32. rewrite starts_from_are by lia. splits.
  - intros n. cbn [In]. split.
    + intros [<-|H]; [constructor|]. apply in_map_iff in H as (o & <- & H). apply offsets_are in H as (pre & post & -> & ->). cbn [Nat.add Z.add]. eapply be_after; eauto.
    + intros [|pre post E]; [now left|right]. apply in_map_iff. exists (length pre). split; [lia|]. apply offsets_are. exists pre, post. auto.
  - destruct (offsets_sorted t 0) as [S1 F1]. constructor.
    + clear F1. induction S1 as [|o l S1 IH F]; cbn [map]; constructor; [exact IH|]. apply Forall_map. eapply Forall_impl; [|exact F]. cbn. intros; lia.
    + apply Forall_map. eapply Forall_impl; [|exact F1]. cbn. intros; lia.
  - unfold compute_line_starts. cbn [app map]. f_equal. rewrite map_map. apply map_ext. intros. lia.
Qed.
Print Assumptions lines_below_4g.
(** ... for a longer one it is wrong: the line after 2^32 bytes is entered as beginning at 0. *)
Theorem lines_beyond_4g_refuted : exists t, Z.of_nat (length t) = 2 ^ 32 /\ line_starts32 t = [0; 0] /\ begins t (2 ^ 32) /\ ~ In (2 ^ 32) (line_starts32 t).
Proof.
  assert (X : exists k, Z.of_nat k = 2 ^ 32 - 1) by (exists (Z.to_nat (2 ^ 32 - 1)); rewrite Z2Nat.id; [reflexivity|discriminate]). destruct X as (k & K).
  assert (Y : forall k n, starts_from n (repeat 97%N k ++ [10%N]) = [as_u32 (n + Z.of_nat k + 1)]).
  { clear. induction k as [|k IH]; intros n; cbn [repeat app starts_from]; [cbn; now rewrite Z.add_0_r|]. change (97 =? 10)%N with false. cbn iota. rewrite IH. do 2 f_equal. lia. }
  assert (Z0 : line_starts32 (repeat 97%N k ++ [10%N]) = [0; 0]) by (unfold line_starts32; rewrite Y, K; reflexivity).
  exists (repeat 97%N k ++ [10%N]). splits; [rewrite app_length, repeat_length; cbn [length]; lia|exact Z0| |rewrite Z0; vals; cbn; lia].
  replace (2 ^ 32) with (Z.of_nat (length (repeat 97%N k)) + 1) by (rewrite repeat_length; lia). now apply be_after with [].
Qed.
Print Assumptions lines_beyond_4g_refuted.
Example spans_met : exists s, try_from_range 7 2 5 = Some s /\ whole_span s /\ slice_at [104; 101; 108; 108; 111; 10]%N s = Ok [108; 108; 111]%N /\
  span_shift true s (-2) = Ok (mkSpan 7 0 3) /\ span_cmp s (mkSpan 7 2 6) = Lt /\ line_starts32 [97; 10; 98; 10]%N = [0; 2; 4].
Proof. exists (mkSpan 7 2 5). splits; try reflexivity; split; cbn; vals; lia. Qed.
