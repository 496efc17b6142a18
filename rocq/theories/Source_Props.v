(** C38, C39, C50, C51: line tables, positions, excerpts and selections. *)
From Coq Require Import Sorted.
From Verif Require Import Base Text_Model Text_Spec Text_Proofs Cursor_Model Source_Model Source_Spec Source_Proofs.

(** A session of updates. *)
Fixpoint updates (f : source) (l : list (bytes * option selection * Z)) : res (source + update_error) :=
  match l with
  | [] => Val (inl f)
  | (text, sel, v) :: r => do o <- update f text sel v; match o with inl f' => updates f' r | inr e => Val (inr e) end
  end.
Lemma wf_new b : utf8_like b -> wf (source_new b).
Proof. intros U. split; auto. apply starts_new. Qed.
Lemma wf_table f : wf f -> is_line_table (s_text f) (s_starts f).
Proof. intros [W _]. rewrite W. apply table_nls. Qed.

(** C38, for edits between places inside lines: after any session the text is the edited one and the
    line table is the one of that text. *)
Theorem C38_line_table_partial b edits b' : utf8_like b -> edited b edits b' ->
  exists f, updates (source_new b) edits = Val (inl f) /\ s_text f = b' /\ is_line_table b' (s_starts f) /\
    s_version f = last (map snd edits) 0%Z.
Proof.
  intros U E.
  assert (G : forall b edits b', edited b edits b' -> forall f, wf f -> s_text f = b ->
    exists f', updates f edits = Val (inl f') /\ wf f' /\ s_text f' = b' /\ s_version f' = last (map snd edits) (s_version f)).
  { clear. intros b edits b' E. induction E as [b|b text v l b' UT E IH|b text sel v s e b1 l b' UT PS PE SE BS BE (pre & mid & post & -> & L1 & L2 & ->) E IH]; intros f W T.
    - exists f. auto.
    - destruct (update_full f text v UT) as (f1 & R & W1 & V1 & T1). cbn [updates]. rewrite R. cbn [bind].
      destruct (IH f1 W1 T1) as (f2 & R2 & W2 & T2 & V2). exists f2. splits; auto. rewrite V2, V1. cbn [map snd]. 
      destruct (map snd l) as [|z r]; auto. clear. revert z. induction r as [|y r IHr]; intros z; auto. simpl in *. apply IHr.
    - rewrite <- T in *. destruct (update_range f text sel v s e W UT PS PE SE BS BE) as (f1 & R & W1 & V1 & T1). cbn [updates]. rewrite R. cbn [bind].
      assert (T1' : s_text f1 = pre ++ text ++ post).
      { rewrite T1, T. rewrite app_length in L2.
        assert (Q : mid ++ post = skipn s (pre ++ mid ++ post)) by (rewrite skipn_app, skipn_all2, L1, Nat.sub_diag by lia; reflexivity).
        rewrite firstn_app, firstn_all2, L1, Nat.sub_diag by lia. simpl (firstn 0 _). rewrite app_nil_r. f_equal. f_equal.
        rewrite app_assoc, skipn_app, skipn_all2 by (rewrite app_length; lia). rewrite app_length. replace (e - (length pre + length mid)) with 0 by lia. reflexivity. }
      destruct (IH f1 W1 T1') as (f2 & R2 & W2 & T2 & V2). exists f2. splits; auto. rewrite V2, V1. cbn [map snd].
      destruct (map snd l) as [|z r]; auto. clear. revert z. induction r as [|y r IHr]; intros z; auto. simpl in *. apply IHr. }
  destruct (G b edits b' E (source_new b) (wf_new b U) eq_refl) as (f & R & W & T & V). exists f. splits; auto.
  rewrite <- T. now apply wf_table.
Qed.
(** A position that is not in the document is an error, whatever the state. *)
Theorem C38_bad_start f text sel v : line_column_to_offset f (p_line (sel_start sel)) (p_char (sel_start sel)) = Val None ->
  update f text (Some sel) v = Val (inr (InvalidStart (sel_start sel))).
Proof. intros H. unfold update. rewrite H. reflexivity. Qed.
(** C38 is false for a column that points behind the newline of its line: the table is no longer
    sorted, or has an entry twice. *)
Theorem C38_past_newline_refuted :
  exists f, updates (source_new [97; LF; 98]%N) [([120; LF]%N, Some (mkSel (mkPos 0 2) (mkPos 0 2)), 1%Z)] = Val (inl f) /\
    s_text f = [97; LF; 120; LF; 98]%N /\ s_starts f = [0; 4; 4] /\ ~ is_line_table (s_text f) (s_starts f).
Proof.
  eexists. split; [vm_compute; reflexivity|]. split; [reflexivity|]. split; [reflexivity|].
  intros H. apply table_unique in H. discriminate.
Qed.
Theorem C38_delete_line_refuted :
  exists f, updates (source_new [97; LF; 98]%N) [([], Some (mkSel (mkPos 0 0) (mkPos 0 2)), 1%Z)] = Val (inl f) /\
    s_text f = [98]%N /\ s_starts f = [0; 0] /\ ~ is_line_table (s_text f) (s_starts f).
Proof.
  eexists. split; [vm_compute; reflexivity|]. split; [reflexivity|]. split; [reflexivity|].
  intros H. apply table_unique in H. discriminate.
Qed.
(** A selection whose ends are swapped aborts. *)
Theorem C38_swapped_refuted : update (source_new [97; 98]%N) [] (Some (mkSel (mkPos 0 1) (mkPos 0 0))) 1 = Panic.
Proof. reflexivity. Qed.
Example C38_ex : edited [97; LF; 98; 99]%N [([120; LF; 121]%N, Some (mkSel (mkPos 0 1) (mkPos 1 1)), 7%Z); ([LF]%N, None, 8%Z)] [LF]%N.
Proof.
  assert (U : utf8_like [LF]%N).
  { intros [|[|i]] x H C; unfold byte_at in H; simpl in H; try discriminate. injection H as <-. discriminate. }
  eapply Ed_range with (s := 1) (e := 3).
  - intros [|[|[|i]]] x H C; unfold byte_at in H; simpl in H; try (destruct i; discriminate); injection H as <-; discriminate.
  - split; [|split; [|split]]; simpl; auto. { eapply Nb_other; [constructor|reflexivity|discriminate]. } constructor.
  - split; [|split; [|split]]; simpl; auto.
    + eapply Nb_other; [|reflexivity|discriminate]. eapply Nb_lf; [|reflexivity]. eapply Nb_other; [constructor|reflexivity|discriminate].
    + eapply Nb_lf; [|reflexivity]. eapply Nb_other; [constructor|reflexivity|discriminate].
    + right. reflexivity.
  - lia.
  - reflexivity.
  - reflexivity.
  - exists [97]%N, [LF; 98]%N, [99]%N. repeat split.
  - constructor; [exact U|]. constructor.
Qed.

(** C39: the line of an offset is the number of newlines before it. *)
Theorem C39_line_of_offset b x : utf8_like b -> x <= length b ->
  exists l, line_index (source_new b) x = Val l /\ newlines_before b x l.
Proof. intros U L. apply (line_index_nb (source_new b) x (wf_new b U) L). Qed.
(** C39: the line ranges partition the file: every offset is in exactly one, that of its line; a range
    ends behind the first newline after its start, or at the end of the file. *)
Theorem C39_lines_partition b : utf8_like b ->
  let f := source_new b in
  (forall x, x < length b -> exists l r, line_index f x = Val l /\ line_range f l = Some r /\ rstart r <= x < rend r /\
     forall l' r', line_range f l' = Some r' -> rstart r' <= x < rend r' -> l' = l) /\
  (forall l r, line_range f l = Some r -> rstart r <= rend r <= length b /\ (rstart r = 0 \/ byte_at b (rstart r - 1) LF) /\
     (forall j, rstart r <= j -> j + 1 < rend r -> ~ byte_at b j LF) /\ (rend r = length b \/ byte_at b (rend r - 1) LF)) /\
  (forall l r r', line_range f l = Some r -> line_range f (l + 1) = Some r' -> rstart r' = rend r) /\
  (exists r, line_range f (last_line_index f) = Some r /\ rend r = length b /\ forall l, last_line_index f < l -> line_range f l = None).
Proof.
  intros U f. pose proof (wf_new b U) as W. fold f in W. assert (WS : s_starts f = 0 :: nls b) by apply W.
  assert (LR : forall l r, line_range f l = Some r -> newlines_before b (rstart r) l /\ line_begin b (rstart r) /\
     (nth_error (0 :: nls b) (l + 1) = Some (rend r) \/ (nth_error (0 :: nls b) (l + 1) = None /\ rend r = length b))).
  { intros l r H. destruct (line_start f l) as [s|] eqn:LS; [|unfold line_range in H; rewrite LS in H; discriminate].
    unfold line_start in LS. destruct (line_range_spec f l s W LS) as (e & H' & NE). rewrite H in H'. injection H' as ->. cbn [rstart rend].
    rewrite WS in *. apply start_nth in LS as [N1 LB]. auto. }
  assert (INL : forall l r x, line_range f l = Some r -> rstart r <= x < rend r -> newlines_before b x l).
  { intros l r x H [H1 H2]. destruct (LR l r H) as (NB & LB & NE).
    assert (XB : x <= length b). { destruct NE as [NE|[_ NE]]; [|lia]. apply start_nth in NE as [NE _]. apply nb_spec in NE as [NE _]. lia. }
    assert (NX : newlines_before b x (length (nls (firstn x b)))) by (apply nb_spec; auto).
    destruct (nb_start _ _ _ NX) as (s & SX & NS & SLB & NTH).
    pose proof (nb_mono _ _ _ _ _ NB NX H1) as LE. replace l with (length (nls (firstn x b))); auto.
    destruct (Nat.eq_dec l (length (nls (firstn x b)))) as [Q|Q]; auto. exfalso.
    destruct NE as [NE|[NE _]].
    - pose proof NE as NE0. apply start_nth in NE as [NE _]. pose proof (nb_mono _ _ _ _ _ NX NE ltac:(lia)) as X.
      assert (EQ : length (nls (firstn x b)) = l + 1) by lia. rewrite EQ in NTH. rewrite NE0 in NTH. injection NTH as <-. lia.
    - apply nth_error_None in NE. assert (length (nls (firstn x b)) < length (0 :: nls b)) by (apply nth_error_Some; congruence). lia. }
  splits.
  - intros x X. destruct (line_index_nb f x W) as (l & LI & NB); [simpl; lia|]. change (s_text f) with b in NB.
    destruct (nb_start _ _ _ NB) as (s & SX & NS & SLB & NTH). rewrite <- WS in NTH.
    destruct (line_range_spec f l s W NTH) as (e & H & NE). exists l, (mkRange s e). splits; auto.
    + cbn [rend]. destruct NE as [NE|[_ ->]]; [|exact X]. rewrite WS in NE. eapply next_start; eauto.
    + intros l' r' H' IN. pose proof (INL l' r' x H' IN) as NB'. eapply nb_unique; eauto.
  - intros l r H. destruct (LR l r H) as (NB & LB & NE).
    assert (RR : rstart r <= rend r <= length b /\ (rend r = length b \/ byte_at b (rend r - 1) LF)).
    { destruct NE as [NE|[_ ->]].
      - pose proof (next_start _ _ _ _ NB NE). apply start_nth in NE as [NE [Q|Q]]; [lia|]. apply nb_spec in NE as [NE _]. split; [lia|auto].
      - apply nb_spec in NB as [NB _]. split; [lia|auto]. }
    destruct RR as [R1 R2]. splits; try tauto.
    intros j J1 J2 BJ. pose proof (INL l r j H ltac:(lia)) as NJ. pose proof (INL l r (j + 1) H ltac:(lia)) as NJ'.
    pose proof (Nb_lf b j l NJ BJ) as Y. replace (S j) with (j + 1) in Y by lia. pose proof (nb_unique _ _ _ _ NJ' Y). lia.
  - intros l r r' H H'. destruct (LR l r H) as (_ & _ & NE). destruct (line_start f (l + 1)) as [s|] eqn:LS; [|unfold line_range in H'; rewrite LS in H'; discriminate].
    unfold line_start in LS. destruct (line_range_spec f (l + 1) s W LS) as (e & Q & _). rewrite H' in Q. injection Q as ->. rewrite WS in LS. cbn [rstart].
    destruct NE as [NE|[NE _]]; congruence.
  - assert (LC : line_count f = S (length (nls b))) by (unfold line_count; now rewrite WS).
    assert (LL : last_line_index f = length (nls b)) by (unfold last_line_index; lia). rewrite LL.
    destruct (nth_error (0 :: nls b) (length (nls b))) as [s|] eqn:NTH; [|apply nth_error_None in NTH; cbn in NTH; lia].
    rewrite <- WS in NTH. destruct (line_range_spec f _ s W NTH) as (e & H & NE). exists (mkRange s e). splits; auto.
    + cbn [rend]. destruct NE as [NE|[_ NE]]; auto. rewrite WS in NE. assert (length (nls b) + 1 < length (0 :: nls b)) by (apply nth_error_Some; congruence). cbn in *; lia.
    + intros l L. unfold line_range, line_start. rewrite WS. replace (nth_error (0 :: nls b) l) with (@None nat); auto.
      symmetry. apply nth_error_None. cbn. lia.
Qed.
Lemma location_computed b x : utf8_like b ->
  location (source_new b) x =
    if (x <=? length b) && is_boundary b x
    then Val (Some (length (nls (firstn x b)) + 1,
               char_count (skipn (match nth_error (0 :: nls b) (length (nls (firstn x b))) with Some s => s | None => 0 end) (firstn x b)) + 1))
    else Val None.
Proof.
  intros U. pose proof (wf_new b U) as W. unfold location. rewrite (line_index_spec _ x W). cbn [bind].
  change (s_text (source_new b)) with b. unfold line_start. replace (s_starts (source_new b)) with (0 :: nls b) by (symmetry; apply W).
  destruct (x <=? length b) eqn:XL.
  - apply Nat.leb_le in XL. assert (NX : newlines_before b x (length (nls (firstn x b)))) by (apply nb_spec; auto).
    destruct (nb_start _ _ _ NX) as (s & SX & NS & SLB & NTH). rewrite NTH. unfold str_get.
    apply Nat.leb_le in SX as SX'. apply Nat.leb_le in XL as XL'. rewrite SX', XL'.
    rewrite (begin_boundary b s U SLB) by lia. cbn [andb]. destruct (is_boundary b x); auto.
    rewrite <- skipn_firstn_comm. reflexivity.
  - cbn [andb]. destruct (nth_error (0 :: nls b) (length (nls (firstn x b)))); auto. unfold str_get. rewrite XL.
    rewrite andb_false_r. reflexivity.
Qed.
(** C39: what [location] reports: the line, and the number of characters since the start of the line,
    both counted from 1; nothing for an offset outside the text or inside a character. *)
Theorem C39_location b x : utf8_like b ->
  (x <= length b -> is_boundary b x = true ->
     exists l s, newlines_before b x l /\ s <= x /\ newlines_before b s l /\ (s = 0 \/ byte_at b (s - 1) LF) /\
       location (source_new b) x = Val (Some (l + 1, char_count (firstn (x - s) (skipn s b)) + 1))) /\
  (length b < x \/ is_boundary b x = false -> location (source_new b) x = Val None).
Proof.
  intros U. rewrite (location_computed b x U). split.
  - intros L B. assert (NX : newlines_before b x (length (nls (firstn x b)))) by (apply nb_spec; auto).
    destruct (nb_start _ _ _ NX) as (s & SX & NS & SLB & NTH). apply Nat.leb_le in L. rewrite L, B, NTH. cbn [andb].
    exists (length (nls (firstn x b))), s. splits; auto. now rewrite skipn_firstn_comm.
  - intros [L|B]; [apply Nat.leb_gt in L; now rewrite L|]. now rewrite B, andb_false_r.
Qed.
Lemma ascii_facts b : ascii b -> utf8_like b /\ (forall x, x <= length b -> is_boundary b x = true) /\
  (forall s e, char_count (skipn s (firstn e b)) = length (skipn s (firstn e b))).
Proof.
  intros A. assert (NC : forall x, In x b -> continues x = false).
  { intros x I. apply In_nth_error in I as (i & I). specialize (A i x I). unfold continues. destruct (128 <=? x)%N eqn:Q; auto. apply N.leb_le in Q. lia. }
  splits.
  - intros i x H C. apply nth_error_In in H. rewrite NC in C; auto. discriminate.
  - intros x L. unfold is_boundary. destruct (x =? length b) eqn:Q; auto. apply Nat.eqb_neq in Q. simpl.
    destruct (nth_error b x) as [y|] eqn:Y; [|apply nth_error_None in Y; lia]. apply nth_error_In in Y. now rewrite NC.
  - intros s e. unfold char_count. assert (H : forall x, In x (skipn s (firstn e b)) -> negb (continues x) = true).
    { intros x I. rewrite NC; auto. rewrite <- (firstn_skipn e b). apply in_or_app; left. rewrite <- (firstn_skipn s (firstn e b)). apply in_or_app; auto. }
    revert H. generalize (skipn s (firstn e b)). induction l as [|y l IH]; intros H; auto. simpl. rewrite (H y) by (simpl; auto). simpl. f_equal. apply IH. intros; apply H; simpl; auto.
Qed.
(** C39, for ASCII text: converting an offset to a line and column and back gives the offset. *)
Theorem C39_roundtrip_partial b x : ascii b -> x <= length b ->
  exists l c, location (source_new b) x = Val (Some (l + 1, c + 1)) /\ line_column_to_offset (source_new b) l c = Val (Some x).
Proof.
  intros A L. destruct (ascii_facts b A) as (U & B & CC). rewrite (location_computed b x U).
  apply Nat.leb_le in L as L'. rewrite L', (B x L). cbn [andb]. eexists _, _. split; [reflexivity|].
  assert (NX : newlines_before b x (length (nls (firstn x b)))) by (apply nb_spec; auto).
  destruct (nb_start _ _ _ NX) as (s & SX & NS & SLB & NTH). rewrite NTH, CC.
  rewrite skipn_length, firstn_length, Nat.min_l by lia.
  pose proof (place_offset (source_new b) (mkPos (length (nls (firstn x b))) (x - s)) x (wf_new b U)) as P. cbn [p_line p_char] in P.
  change (s_text (source_new b)) with b in P. rewrite P; [now rewrite (B x L)|]. split; [exact NX|]. cbn [p_line p_char]. replace (x - (x - s)) with s by lia. split; [lia|]. split; [exact NS|exact SLB].
Qed.
(** ... and a place is reported as the position it was given by. *)
Theorem C39_place_roundtrip_partial b p x : ascii b -> place b p x ->
  line_column_to_offset (source_new b) (p_line p) (p_char p) = Val (Some x) /\
  location (source_new b) x = Val (Some (p_line p + 1, p_char p + 1)).
Proof.
  intros A P. destruct (ascii_facts b A) as (U & B & CC). pose proof P as (NX & CX & NS & LB).
  assert (L : x <= length b) by (apply nb_spec in NX; tauto). split.
  - rewrite (place_offset (source_new b) p x (wf_new b U) P). change (s_text (source_new b)) with b. now rewrite (B x L).
  - rewrite (location_computed b x U). apply Nat.leb_le in L as L'. rewrite L', (B x L). cbn [andb].
    assert (LN : length (nls (firstn x b)) = p_line p) by (apply nb_spec in NX; symmetry; tauto).
    rewrite LN, (nth_start _ _ _ NS LB), CC, skipn_length, firstn_length, Nat.min_l by lia. repeat f_equal; lia.
Qed.
(** C39 is false beyond ASCII: columns are reported in characters and read back in bytes.  In "éa" the
    "a" is at column 2, which is inside the first character: reading it back aborts. *)
Theorem C39_refuted : location (source_new [195; 169; 97]%N) 2 = Val (Some (1, 2)) /\
  line_column_to_offset (source_new [195; 169; 97]%N) 0 1 = Panic /\ utf8_like [195; 169; 97]%N.
Proof.
  split; [reflexivity|]. split; [reflexivity|].
  intros [|[|[|i]]] x H C; unfold byte_at in H; simpl in H; try (destruct i; discriminate); injection H as <-; try discriminate.
  exists 0, 195%N. repeat split. lia.
Qed.
Example C39_ex : location (source_new [97; LF; 98; 99]%N) 3 = Val (Some (2, 2)) /\ line_column_to_offset (source_new [97; LF; 98; 99]%N) 1 1 = Val (Some 3).
Proof. split; reflexivity. Qed.

(** C50: the excerpt for a span inside the file contains the span, and with context lines requested
    begins (ends) where the line that many lines before (after) begins (ends), or at the edge of the
    file. *)
Theorem C50_excerpt b offset len before after : utf8_like b -> offset + len <= length b ->
  exists r t, read_span (source_new b) offset len before after = Val r /\ excerpt (source_new b) r = Val t /\
    rstart r <= offset /\ offset + len <= rend r <= length b /\
    (before = 0 -> rstart r = offset) /\ (after = 0 -> rend r = offset + len) /\
    (before <> 0 -> exists l, newlines_before b offset l /\ newlines_before b (rstart r) (l - before) /\ (rstart r = 0 \/ byte_at b (rstart r - 1) LF)) /\
    (after <> 0 -> exists l, newlines_before b (offset + len) l /\
       (rend r = length b \/ (newlines_before b (rend r) (l + after + 1) /\ byte_at b (rend r - 1) LF))).
Proof.
  intros U L. set (f := source_new b). pose proof (wf_new b U) as W. fold f in W. assert (WS : s_starts f = 0 :: nls b) by apply W.
  unfold read_span.
  assert (S1 : exists s, (if before =? 0 then Val offset else do l <- line_index f offset; Val (match line_start f (l - before) with Some x => x | None => 0 end)) = Val s /\
    s <= offset /\ (before = 0 -> s = offset) /\
    (before <> 0 -> exists l, newlines_before b offset l /\ newlines_before b s (l - before) /\ (s = 0 \/ byte_at b (s - 1) LF))).
  { destruct (before =? 0) eqn:Q.
    - apply Nat.eqb_eq in Q. exists offset. splits; auto. congruence.
    - apply Nat.eqb_neq in Q. destruct (line_index_nb f offset W) as (l & LI & NB); [simpl; lia|]. change (s_text f) with b in NB. rewrite LI. cbn [bind].
      unfold line_start. rewrite WS.
      assert (LL : l - before < length (0 :: nls b)).
      { destruct (nb_start _ _ _ NB) as (s & _ & _ & _ & NTH). assert (l < length (0 :: nls b)) by (apply nth_error_Some; congruence). lia. }
      destruct (nth_error (0 :: nls b) (l - before)) as [s|] eqn:NT; [|apply nth_error_None in NT; lia].
      apply start_nth in NT as [N1 LB]. exists s. splits; auto; try congruence.
      + destruct (Nat.le_gt_cases s offset) as [X|X]; auto. exfalso. pose proof (nb_mono _ _ _ _ _ NB N1 ltac:(lia)) as M.
        assert (Z : l - before = l) by lia. rewrite Z in N1. destruct LB as [->|LB]; [lia|].
        destruct l as [|l]; [|lia].
        assert (newlines_before b s (S (length (nls (firstn (s - 1) b))))).
        { replace s with (S (s - 1)) at 1 by lia. constructor; auto. apply nb_spec. split; auto. apply byte_lt in LB. lia. }
        pose proof (nb_unique _ _ _ _ N1 H). discriminate.
      + intros _. exists l. splits; auto. }
  assert (S2 : exists e, (if after =? 0 then Val (offset + len) else do l <- line_index f (offset + len);
       Val (match line_range f (l + after) with Some r => rend r | None => length (s_text f) end)) = Val e /\
    offset + len <= e <= length b /\ (after = 0 -> e = offset + len) /\
    (after <> 0 -> exists l, newlines_before b (offset + len) l /\ (e = length b \/ (newlines_before b e (l + after + 1) /\ byte_at b (e - 1) LF)))).
  { destruct (after =? 0) eqn:Q.
    - apply Nat.eqb_eq in Q. exists (offset + len). splits; auto; try lia.
    - apply Nat.eqb_neq in Q. destruct (line_index_nb f (offset + len) W) as (l & LI & NB); [simpl; lia|]. change (s_text f) with b in NB. rewrite LI. cbn [bind].
      destruct (line_start f (l + after)) as [s|] eqn:LS.
      + unfold line_start in LS. destruct (line_range_spec f (l + after) s W LS) as (e & LR & NE). rewrite LR. cbn [rend]. exists e.
        rewrite WS in *. apply start_nth in LS as [N1 LB].
        assert (OS : offset + len <= s).
        { destruct (Nat.le_gt_cases (offset + len) s); auto. pose proof (nb_mono _ _ _ _ _ N1 NB ltac:(lia)). lia. }
        destruct NE as [NE|[_ ->]].
        * pose proof (next_start _ _ _ _ N1 NE). apply start_nth in NE as [N2 [Z|LB2]]; [lia|].
          pose proof (proj1 (nb_spec _ _ _) N2) as [EB _]. splits; try reflexivity; try lia. intros _. exists l. splits; auto.
        * apply nb_spec in N1 as [N1 _]. splits; try reflexivity; try lia; try (simpl; lia). intros _. exists l. split; auto.
      + assert (LR : line_range f (l + after) = None) by (unfold line_range; now rewrite LS). rewrite LR. exists (length b). splits; try lia; auto.
        intros _. exists l. split; auto. }
  destruct S1 as (s & -> & A1 & A2 & A3). destruct S2 as (e & -> & B1 & B2 & B3). cbn [bind].
  replace (s + (e - s + (s - e))) with e by lia.
  destruct (slice_ok b (mkRange s e)) as (t & T); simpl; try lia.
  exists (mkRange s e), t. unfold excerpt. change (s_text f) with b. rewrite T. cbn [rstart rend unwrap]. splits; auto; try lia.
Qed.
Example C50_ex : read_span (source_new [97; LF; 98; LF; 99; LF; 100]%N) 2 1 1 1 = Val (mkRange 0 6).
Proof. reflexivity. Qed.

(** C51: selecting between two places gives the text between them, in whichever order they are given; a
    selection made from two places starts at the first of them. *)
Theorem C51_select b p q x y : utf8_like b -> place b p x -> place b q y -> x <= y -> is_boundary b x = true -> is_boundary b y = true ->
  (x = y -> p = q) ->
  select (source_new b) (mkSel p q) = Val (Some (firstn (y - x) (skipn x b))) /\
  select (source_new b) (mkSel q p) = Val (Some (firstn (y - x) (skipn x b))) /\
  sel_new p q = mkSel p q /\ sel_new q p = mkSel p q.
Proof.
  intros U P Q XY BX BY EQ. pose proof (wf_new b U) as W.
  pose proof (place_offset _ p x W P) as OP. pose proof (place_offset _ q y W Q) as OQ.
  change (s_text (source_new b)) with b in *. rewrite BX in OP. rewrite BY in OQ.
  destruct P as (NP & CP & NSP & LBP). destruct Q as (NQ & CQ & NSQ & LBQ).
  assert (YL : y <= length b) by (apply nb_spec in NQ; tauto).
  assert (LT : pos_ltb q p = false /\ (x <> y -> pos_ltb p q = true)).
  { pose proof (nb_mono _ _ _ _ _ NP NQ XY) as M. unfold pos_ltb. 
    assert (ST : p_line p = p_line q -> x - p_char p = y - p_char q).
    { intros E. pose proof (nth_start _ _ _ NSP LBP) as N1. pose proof (nth_start _ _ _ NSQ LBQ) as N2. rewrite E in N1. congruence. }
    destruct (Nat.eq_dec (p_line p) (p_line q)) as [E|E].
    - specialize (ST E). rewrite E, Nat.ltb_irrefl, Nat.eqb_refl. simpl. split; [apply Nat.ltb_ge; lia|]. intros X. apply Nat.ltb_lt. lia.
    - assert (E' : p_line p < p_line q) by lia. assert ((p_line q <? p_line p) = false) as -> by (apply Nat.ltb_ge; lia).
      assert ((p_line q =? p_line p) = false) as -> by (apply Nat.eqb_neq; lia). apply Nat.ltb_lt in E'. rewrite E'. split; auto. }
  assert (GET : str_get b x y = Some (firstn (y - x) (skipn x b))).
  { unfold str_get. apply Nat.leb_le in XY. apply Nat.leb_le in YL. now rewrite XY, YL, BX, BY. }
  assert (S1 : select (source_new b) (mkSel p q) = Val (Some (firstn (y - x) (skipn x b)))).
  { unfold select, canonical. cbn [sel_start sel_end]. rewrite (proj1 LT). cbn [sel_start sel_end]. rewrite OP. cbn [bind]. rewrite OQ. cbn [bind].
    change (s_text (source_new b)) with b. rewrite GET. reflexivity. }
  split; auto. split.
  2:{ unfold sel_new. rewrite (proj1 LT). split; auto. destruct (Nat.eq_dec x y) as [E|E]; [rewrite (EQ E) in *; destruct (pos_ltb q q); auto|].
      now rewrite (proj2 LT E). }
  destruct (Nat.eq_dec x y) as [E|E]; [rewrite (EQ E) in *; auto|].
  unfold select, canonical in *. cbn [sel_start sel_end] in *. rewrite (proj2 LT E). rewrite (proj1 LT) in S1. exact S1.
Qed.
Example C51_ex : select (source_new [97; LF; 98; 99]%N) (mkSel (mkPos 1 1) (mkPos 0 1)) = Val (Some [LF; 98]%N).
Proof. reflexivity. Qed.
Print Assumptions C38_line_table_partial.
Print Assumptions C39_lines_partition.
Print Assumptions C39_location.
Print Assumptions C39_roundtrip_partial.
Print Assumptions C39_place_roundtrip_partial.
Print Assumptions C50_excerpt.
Print Assumptions C51_select.
