From Coq Require Import Sorted.
From Verif Require Import Base Text_Model Text_Spec Text_Proofs Cursor_Model Source_Model Source_Spec.
Ltac splits := repeat match goal with |- _ /\ _ => split end.

(** Offsets after newlines. *)
Definition nls (b : bytes) : list nat := map S (lf_offsets b 0).
Lemma lf_shift b : forall k, lf_offsets b k = map (fun x => k + x) (lf_offsets b 0).
Proof.
  induction b as [|x b IH]; intros k; auto. simpl. rewrite (IH (S k)), (IH 1).
  destruct (N.eqb x LF); simpl; rewrite map_map; [f_equal; [lia|]|]; apply map_ext; intros; lia.
Qed.
Lemma lf_app a b : lf_offsets (a ++ b) 0 = lf_offsets a 0 ++ map (fun x => length a + x) (lf_offsets b 0).
Proof.
  induction a as [|x a IH]; simpl; [now rewrite map_id|].
  rewrite (lf_shift (a ++ b) 1), IH, map_app, map_map, (lf_shift a 1).
  destruct (N.eqb x LF); simpl; reflexivity.
Qed.
Lemma nls_app a b : nls (a ++ b) = nls a ++ map (fun x => length a + x) (nls b).
Proof.
  unfold nls. rewrite lf_app, map_app, !map_map. f_equal. apply map_ext. intros. lia.
Qed.
Lemma nls_pos b x : In x (nls b) -> 1 <= x <= length b.
Proof.
  unfold nls. intros I. apply in_map_iff in I as (y & <- & I). revert y I. induction b as [|c b IH]; intros y I; [destruct I|].
  simpl in *. rewrite lf_shift in I. destruct (N.eqb c LF); [destruct I as [<-|I]; [lia|]|];
  apply in_map_iff in I as (z & <- & I); specialize (IH z I); simpl in *; lia.
Qed.
Lemma nls_in b x : In x (nls b) <-> exists i, byte_at b i LF /\ x = i + 1.
Proof.
  unfold nls. rewrite in_map_iff. split; intros (y & H1 & H2).
  - exists y. split; [|lia]. revert y H1 H2. revert x. induction b as [|c b IH]; intros x y E I; [destruct I|].
    simpl in I. rewrite lf_shift in I. destruct (N.eqb c LF) eqn:C.
    + destruct I as [<-|I]; [apply N.eqb_eq in C; subst; reflexivity|]. apply in_map_iff in I as (z & <- & I). exact (IH _ z eq_refl I).
    + apply in_map_iff in I as (z & <- & I). exact (IH _ z eq_refl I).
  - subst x. exists y. split; [lia|]. revert y H1. induction b as [|c b IH]; intros y H; [destruct y; discriminate|].
    simpl. rewrite lf_shift. destruct y as [|y].
    + injection H as ->. simpl. auto.
    + specialize (IH y H). destruct (N.eqb c LF); [right|]; apply in_map_iff; exists y; auto.
Qed.
Lemma nls_sorted b : StronglySorted lt (nls b).
Proof.
  unfold nls. induction b as [|c b IH]; simpl; [constructor|]. rewrite lf_shift.
  assert (SS : StronglySorted lt (map S (map (fun x => 1 + x) (lf_offsets b 0)))).
  { revert IH. generalize (lf_offsets b 0). intros l. induction l as [|y l IHl]; intros H; simpl; constructor.
    - inversion H; subst. apply IHl. assumption.
    - inversion H; subst. rewrite !Forall_map in *. eapply Forall_impl; [|eassumption]. simpl. intros; lia. }
  destruct (N.eqb c LF); simpl; auto. constructor; auto. rewrite !Forall_map. apply Forall_forall. simpl. intros; lia.
Qed.
Lemma starts_new b : compute_line_starts b None = 0 :: nls b.
Proof. unfold compute_line_starts, nls. simpl. f_equal. apply map_ext. intros; lia. Qed.
Lemma starts_added b k : compute_line_starts b (Some k) = map (fun x => k + x) (nls b).
Proof. unfold compute_line_starts, nls. simpl. rewrite map_map. apply map_ext. intros; lia. Qed.
Lemma table_nls b : is_line_table b (0 :: nls b).
Proof.
  split.
  - constructor; [apply nls_sorted|]. apply Forall_forall. intros x I. apply nls_pos in I. lia.
  - intros x. simpl. rewrite nls_in. split; [intros [<-|H]; auto|intros [->|H]; auto].
Qed.
Lemma sorted_unique (t u : list nat) : StronglySorted lt t -> StronglySorted lt u -> (forall x, In x t <-> In x u) -> t = u.
Proof.
  revert u. induction t as [|x t IH]; intros [|y u] ST SU H; auto.
  - exfalso. apply (proj2 (H y)). simpl; auto.
  - exfalso. apply (proj1 (H x)). simpl; auto.
  - inversion ST as [|? ? ST' FT]; subst. inversion SU as [|? ? SU' FU]; subst. rewrite Forall_forall in *.
    assert (x = y).
    { destruct (proj1 (H x) (or_introl eq_refl)) as [->|I]; auto.
      destruct (proj2 (H y) (or_introl eq_refl)) as [->|J]; auto. specialize (FT y J). specialize (FU x I). lia. }
    subst y. f_equal. apply IH; auto. intros z. split; intros I.
    + destruct (proj1 (H z) (or_intror I)) as [->|J]; auto. specialize (FT z I). lia.
    + destruct (proj2 (H z) (or_intror I)) as [->|J]; auto. specialize (FU z I). lia.
Qed.
Lemma table_unique b t : is_line_table b t -> t = 0 :: nls b.
Proof.
  intros [S1 I1]. destruct (table_nls b) as [S2 I2]. apply sorted_unique; auto. intros x. now rewrite I1, I2.
Qed.

(** Counting newlines. *)
Lemma firstn_snoc (b : bytes) x c : byte_at b x c -> firstn (S x) b = firstn x b ++ [c].
Proof.
  revert x. induction b as [|y b IH]; intros [|x] H; try discriminate.
  - injection H as ->. reflexivity.
  - cbn [firstn app]. f_equal. apply IH. exact H.
Qed.
Lemma byte_lt (b : bytes) x c : byte_at b x c -> x < length b.
Proof. intros H. apply nth_error_Some. unfold byte_at in H. congruence. Qed.
Lemma nb_spec b x n : newlines_before b x n <-> x <= length b /\ n = length (nls (firstn x b)).
Proof.
  split.
  - induction 1 as [|x n H IH B|x n c H IH B C].
    + split; [lia|reflexivity].
    + destruct IH as [L ->]. split; [apply byte_lt in B; lia|]. rewrite (firstn_snoc _ _ _ B), nls_app, app_length, map_length. simpl. lia.
    + destruct IH as [L ->]. split; [apply byte_lt in B; lia|]. rewrite (firstn_snoc _ _ _ B), nls_app, app_length, map_length.
      unfold nls at 3. simpl. apply N.eqb_neq in C. rewrite C. simpl. lia.
  - revert n. induction x as [|x IH]; intros n [L ->]; [constructor|].
    destruct (nth_error b x) as [c|] eqn:B; [|apply nth_error_None in B; lia].
    specialize (IH _ (conj (Nat.lt_le_incl _ _ L) eq_refl)).
    rewrite (firstn_snoc _ _ _ B), nls_app, app_length, map_length. unfold nls at 2. simpl.
    destruct (N.eqb c LF) eqn:C; simpl.
    + apply N.eqb_eq in C. subst c. rewrite Nat.add_comm. simpl. econstructor; eauto.
    + rewrite Nat.add_0_r. eapply Nb_other; eauto. now apply N.eqb_neq.
Qed.
Lemma nb_unique b x n m : newlines_before b x n -> newlines_before b x m -> n = m.
Proof. rewrite !nb_spec. intros [_ ->] [_ ->]. reflexivity. Qed.
Lemma nls_split b x : x <= length b -> nls b = nls (firstn x b) ++ map (fun y => x + y) (nls (skipn x b)).
Proof.
  intros L. rewrite <- (firstn_skipn x b) at 1. rewrite nls_app, firstn_length, Nat.min_l by lia. reflexivity.
Qed.
Lemma nb_mono b x y n m : newlines_before b x n -> newlines_before b y m -> x <= y -> n <= m.
Proof.
  rewrite !nb_spec. intros [L1 ->] [L2 ->] H. rewrite <- (firstn_skipn x (firstn y b)), nls_app, app_length, map_length, firstn_firstn, Nat.min_l by lia. lia.
Qed.
Definition line_begin (b : bytes) (s : nat) : Prop := s = 0 \/ byte_at b (s - 1) LF.
Lemma nth_start b s l : newlines_before b s l -> line_begin b s -> nth_error (0 :: nls b) l = Some s.
Proof.
  rewrite nb_spec. intros [L ->] [->|B]; [reflexivity|].
  destruct s as [|s]; [reflexivity|]. replace (S s - 1) with s in B by lia.
  rewrite (nls_split b (S s)) by lia. rewrite (firstn_snoc _ _ _ B), nls_app, app_length, map_length.
  change (nls [LF]) with [1]. cbn [length map]. rewrite firstn_length, Nat.min_l, (Nat.add_1_r (length (nls (firstn s b)))) by lia. cbn [nth_error].
  rewrite <- app_assoc, nth_error_app2, Nat.sub_diag by lia. simpl. f_equal. lia.
Qed.
Lemma start_nth b l s : nth_error (0 :: nls b) l = Some s -> newlines_before b s l /\ line_begin b s.
Proof.
  intros H. assert (I : In s (0 :: nls b)) by (eapply nth_error_In; eauto).
  apply (proj2 (table_nls b)) in I. assert (LB : line_begin b s /\ s <= length b).
  { destruct I as [->|(i & B & ->)]; [split; [left; auto|lia]|]. pose proof (byte_lt _ _ _ B). split; [|lia]. right. now replace (i + 1 - 1) with i by lia. }
  destruct LB as [LB LE]. split; auto.
  assert (NB : newlines_before b s (length (nls (firstn s b)))) by (apply nb_spec; auto).
  pose proof (nth_start _ _ _ NB LB) as Q. replace l with (length (nls (firstn s b))); auto.
  apply (proj1 (NoDup_nth_error (0 :: nls b))).
  - destruct (table_nls b) as [SS _]. clear - SS. induction SS as [|x t SS IH F]; constructor; auto. rewrite Forall_forall in F. intros I. specialize (F x I). lia.
  - apply nth_error_Some. congruence.
  - congruence.
Qed.
Lemma next_start b x l e : newlines_before b x l -> nth_error (0 :: nls b) (l + 1) = Some e -> x < e.
Proof.
  rewrite nb_spec. intros [L ->] H. rewrite Nat.add_1_r in H. simpl in H. rewrite (nls_split b x L), nth_error_app2, Nat.sub_diag in H by lia.
  destruct (nls (skipn x b)) as [|y r] eqn:E; [discriminate|]. injection H as <-.
  assert (I : In y (nls (skipn x b))) by (rewrite E; simpl; auto). apply nls_pos in I. lia.
Qed.
Lemma begin_boundary b s : utf8_like b -> line_begin b s -> s <= length b -> is_boundary b s = true.
Proof.
  intros U LB L. unfold is_boundary. destruct (s =? length b) eqn:E; auto. apply Nat.eqb_neq in E. simpl.
  destruct (nth_error b s) as [x|] eqn:X; [|apply nth_error_None in X; lia].
  destruct (continues x) eqn:C; auto. exfalso. destruct (U s x X C) as (j & y & -> & Y & G).
  destruct LB as [?|B]; [lia|]. replace (S j - 1) with j in B by lia. unfold byte_at in *. rewrite Y in B. injection B as ->. unfold LF in G. lia.
Qed.

Lemma nth_firstn {A} (l : list A) k c : c < k -> nth_error (firstn k l) c = nth_error l c.
Proof. revert l c. induction k as [|k IH]; intros l c P; [lia|]. destruct l; [now destruct c|]. destruct c; simpl; auto. apply IH. lia. Qed.
Lemma nth_skipn {A} (l : list A) s c : nth_error (skipn s l) c = nth_error l (s + c).
Proof. revert s. induction l as [|y l IH]; intros [|s]; simpl; auto. now destruct c. Qed.
(** A source whose table is right. *)
Definition wf (f : source) : Prop := s_starts f = 0 :: nls (s_text f) /\ utf8_like (s_text f).
Lemma line_range_spec f l s : wf f -> nth_error (s_starts f) l = Some s ->
  exists e, line_range f l = Some (mkRange s e) /\ (nth_error (s_starts f) (l + 1) = Some e \/ (nth_error (s_starts f) (l + 1) = None /\ e = length (s_text f))).
Proof.
  intros W H. unfold line_range, line_start. rewrite H. destruct (nth_error (s_starts f) (l + 1)) as [e|]; eauto.
Qed.
Lemma place_offset f p x : wf f -> place (s_text f) p x ->
  line_column_to_offset f (p_line p) (p_char p) = if is_boundary (s_text f) x then Val (Some x) else Panic.
Proof.
  intros [W U] (NX & CX & NS & LB). set (b := s_text f) in *. set (s := x - p_char p) in *.
  pose proof (nth_start _ _ _ NS LB) as HS. rewrite <- W in HS. fold (line_begin b s) in LB.
  destruct (line_range_spec f (p_line p) s (conj W U) HS) as (e & LR & NE). fold b in NE.
  unfold line_column_to_offset. rewrite LR. cbn [rstart rend].
  assert (XB : x <= length b) by (apply nb_spec in NX; tauto).
  assert (BE : x <= e /\ e <= length b /\ is_boundary b e = true).
  { destruct NE as [NE|[NE ->]].
    - rewrite W in NE. pose proof (next_start _ _ _ _ NX NE). apply start_nth in NE as [NE LE]. apply nb_spec in NE as [NE _].
      splits; try lia. now apply begin_boundary.
    - splits; auto. unfold is_boundary. now rewrite Nat.eqb_refl. }
  destruct BE as (XE & EB & BE).
  assert (SB : is_boundary b s = true) by (apply begin_boundary; auto; lia).
  unfold str_get. fold b. assert (SE : s <= e) by lia. apply Nat.leb_le in SE as ->. apply Nat.leb_le in EB as EB'. rewrite EB', SB, BE. cbn [andb unwrap bind].
  assert (LEN : length (firstn (e - s) (skipn s b)) = e - s) by (rewrite firstn_length, skipn_length; lia).
  rewrite LEN. assert (LT : (e - s <? p_char p) = false) by (apply Nat.ltb_ge; lia). rewrite LT.
  assert (BC : is_boundary (firstn (e - s) (skipn s b)) (p_char p) = is_boundary b x).
  { unfold is_boundary at 1. rewrite LEN. destruct (p_char p =? e - s) eqn:Q.
    - apply Nat.eqb_eq in Q. replace x with e by lia. simpl. congruence.
    - apply Nat.eqb_neq in Q. simpl. unfold is_boundary.
      assert (NN : nth_error (firstn (e - s) (skipn s b)) (p_char p) = nth_error b x).
      { replace x with (s + p_char p) by lia. clear - Q CX XE. 
        rewrite nth_firstn by lia. apply nth_skipn. }
      rewrite NN. destruct (x =? length b) eqn:Z; auto. apply Nat.eqb_eq in Z. exfalso. apply Q. lia. }
  rewrite BC. replace (s + p_char p) with x by lia. reflexivity.
Qed.

Lemma utf8_app_boundary b text s e : utf8_like b -> utf8_like text -> s <= e -> e <= length b -> is_boundary b e = true ->
  utf8_like (firstn s b ++ text ++ skipn e b).
Proof.
  intros U UT SE EB BE i x I C.
  assert (FS : length (firstn s b) = s) by (rewrite firstn_length; lia).
  unfold byte_at in *. destruct (Nat.lt_ge_cases i s) as [H|H].
  - rewrite nth_error_app1 in I by lia.
    assert (I' : nth_error b i = Some x) by (rewrite <- (firstn_skipn s b), nth_error_app1; auto; lia).
    destruct (U i x I' C) as (j & y & -> & Y & G). exists j, y. splits; auto.
    rewrite nth_error_app1 by lia. rewrite nth_firstn by lia. exact Y.
  - rewrite nth_error_app2, FS in I by lia. destruct (Nat.lt_ge_cases (i - s) (length text)) as [K|K].
    + rewrite nth_error_app1 in I by lia. destruct (UT _ x I C) as (j & y & J & Y & G). exists (s + j), y. splits; auto; [lia|].
      unfold byte_at in Y. rewrite nth_error_app2, FS by lia. replace (s + j - s) with j by lia. rewrite nth_error_app1; auto. apply nth_error_Some. congruence.
    + rewrite nth_error_app2 in I by lia. set (k := i - s - length text) in *.
      pose proof (nth_skipn b e) as NS.
      rewrite NS in I. destruct (Nat.eq_dec k 0) as [Z|Z].
      * exfalso. rewrite Z, Nat.add_0_r in I. unfold is_boundary in BE.
        assert (e <> length b) by (intros ->; rewrite (proj2 (nth_error_None b (length b))) in I; [discriminate|lia]).
        apply Nat.eqb_neq in H0. rewrite H0, I in BE. simpl in BE. rewrite C in BE. discriminate.
      * destruct (U _ x I C) as (j & y & J & Y & G). exists (i - 1), y. splits; auto; [lia|]. unfold byte_at in Y.
        rewrite nth_error_app2, FS by lia. rewrite nth_error_app2 by lia. rewrite NS. replace (e + (i - 1 - s - length text)) with j by lia. exact Y.
Qed.

(** One edit between two places. *)
Lemma update_range f text sel v s e : wf f -> utf8_like text ->
  place (s_text f) (sel_start sel) s -> place (s_text f) (sel_end sel) e -> s <= e ->
  is_boundary (s_text f) s = true -> is_boundary (s_text f) e = true ->
  exists f', update f text (Some sel) v = Val (inl f') /\ wf f' /\ s_version f' = v /\
    s_text f' = firstn s (s_text f) ++ text ++ skipn e (s_text f).
Proof.
  intros W UT PS PE SE BS BE. unfold update.
  rewrite (place_offset f _ s W PS), BS. cbn [bind]. rewrite (place_offset f _ e W PE), BE. cbn [bind].
  apply Nat.leb_le in SE as SE'. rewrite SE', BS, BE. cbn [assert andb bind].
  destruct W as [W U]. destruct PS as (NS & _). destruct PE as (NE & _).
  set (b := s_text f) in *. set (ls := p_line (sel_start sel)) in *. set (le := p_line (sel_end sel)) in *.
  pose proof (nb_mono _ _ _ _ _ NS NE SE) as LL.
  apply nb_spec in NS as [SB LS]. apply nb_spec in NE as [EB LE].
  assert (LT : le < length (0 :: nls b)).
  { rewrite (nls_split b e EB). simpl. rewrite app_length. lia. }
  set (spe := if ls =? le then ls + 1 else _).
  assert (SPE : spe = le + 1).
  { unfold spe. rewrite W. destruct (ls =? le) eqn:Q; [apply Nat.eqb_eq in Q; lia|]. apply Nat.eqb_neq in Q.
    rewrite Nat.min_l by lia. destruct (ls + 1 <=? le) eqn:Q2; [reflexivity|]. apply Nat.leb_gt in Q2. lia. }
  rewrite SPE. clear spe SPE. unfold splice. rewrite W.
  assert (C1 : (ls + 1 <=? le + 1) = true) by (apply Nat.leb_le; lia).
  assert (C2 : (le + 1 <=? length (0 :: nls b)) = true) by (apply Nat.leb_le; lia). rewrite C1, C2. cbn [andb bind].
  assert (F1 : firstn (ls + 1) (0 :: nls b) = 0 :: nls (firstn s b)).
  { rewrite Nat.add_1_r. cbn [firstn]. f_equal. rewrite (nls_split b s SB), LS, firstn_app, Nat.sub_diag, firstn_all. simpl. apply app_nil_r. }
  assert (F2 : skipn (le + 1) (0 :: nls b) = map (fun y => e + y) (nls (skipn e b))).
  { rewrite Nat.add_1_r. cbn [skipn]. rewrite (nls_split b e EB), LE, skipn_app, Nat.sub_diag, skipn_all. reflexivity. }
  rewrite F1, F2, starts_added, map_length.
  set (t := (0 :: nls (firstn s b)) ++ map (fun x => s + x) (nls text) ++ map (fun y => e + y) (nls (skipn e b))).
  assert (K1 : firstn (ls + 1 + length (nls text)) t = (0 :: nls (firstn s b)) ++ map (fun x => s + x) (nls text)).
  { unfold t. rewrite app_assoc. rewrite firstn_app.
    replace (ls + 1 + length (nls text) - length ((0 :: nls (firstn s b)) ++ map (fun x => s + x) (nls text))) with 0.
    - simpl (firstn 0 _). rewrite app_nil_r. apply firstn_all2. rewrite app_length, map_length. simpl. lia.
    - rewrite app_length, map_length. simpl. lia. }
  assert (K2 : skipn (ls + 1 + length (nls text)) t = map (fun y => e + y) (nls (skipn e b))).
  { unfold t. rewrite app_assoc. rewrite skipn_app.
    replace (ls + 1 + length (nls text) - length ((0 :: nls (firstn s b)) ++ map (fun x => s + x) (nls text))) with 0.
    - rewrite skipn_all2; [reflexivity|]. rewrite app_length, map_length. simpl. lia.
    - rewrite app_length, map_length. simpl. lia. }
  assert (T : (if Z.eqb (Z.of_nat (length text) - Z.of_nat (e - s)) 0 then t
       else firstn (ls + 1 + length (nls text)) t ++ map (fun x => saturating_add_signed x (Z.of_nat (length text) - Z.of_nat (e - s))) (skipn (ls + 1 + length (nls text)) t))
     = 0 :: nls (firstn s b ++ text ++ skipn e b)).
  { rewrite !nls_app, map_app, map_map. rewrite K1, K2. rewrite firstn_length, Nat.min_l by lia.
    destruct (Z.eqb_spec (Z.of_nat (length text) - Z.of_nat (e - s)) 0) as [D|D].
    - unfold t. simpl. f_equal. f_equal. f_equal. apply map_ext. intros y. lia.
    - rewrite <- app_assoc. simpl. f_equal. f_equal. f_equal. rewrite map_map. apply map_ext. intros y. unfold saturating_add_signed. lia. }
  rewrite T. eexists. split; [reflexivity|]. split; [split|split]; auto. simpl. now apply utf8_app_boundary.
Qed.
Lemma update_full f text v : utf8_like text ->
  exists f', update f text None v = Val (inl f') /\ wf f' /\ s_version f' = v /\ s_text f' = text.
Proof. intros U. eexists. split; [reflexivity|]. split; [split; auto; apply starts_new|]. auto. Qed.

(** The line of an offset. *)
Lemma search_split A B x : (forall y, In y A -> y <= x) -> (forall y, In y B -> x < y) -> StronglySorted lt (A ++ B) -> A <> [] ->
  binary_search (A ++ B) x = inl (length A - 1) \/ binary_search (A ++ B) x = inr (length A).
Proof.
  induction A as [|y A IH]; intros H1 H2 SS NE; [congruence|]. inversion SS as [|? ? SS' F]; subst. rewrite Forall_forall in F.
  assert (YX : y <= x) by (apply H1; simpl; auto). cbn [app binary_search].
  destruct A as [|z A].
  - destruct (y =? x) eqn:E; [left; reflexivity|]. apply Nat.eqb_neq in E. assert ((x <? y) = false) as -> by (apply Nat.ltb_ge; lia).
    right. destruct B as [|w B]; [reflexivity|]. simpl. assert (x < w) by (apply H2; simpl; auto).
    assert ((w =? x) = false) as -> by (apply Nat.eqb_neq; lia). assert ((x <? w) = true) as -> by (apply Nat.ltb_lt; lia). reflexivity.
  - assert (y < z) by (apply F; simpl; auto). assert (z <= x) by (apply H1; simpl; auto).
    assert ((y =? x) = false) as -> by (apply Nat.eqb_neq; lia). assert ((x <? y) = false) as -> by (apply Nat.ltb_ge; lia).
    destruct IH as [-> | ->]; auto; try discriminate.
    + intros w I. apply H1. simpl; auto.
    + left. f_equal. simpl. lia.
Qed.
Lemma line_index_spec f x : wf f -> line_index f x = Val (length (nls (firstn x (s_text f)))).
Proof.
  intros [W U]. unfold line_index. rewrite W. set (b := s_text f).
  assert (SP : exists B, nls b = nls (firstn x b) ++ B /\ forall y, In y B -> x < y).
  { destruct (Nat.le_gt_cases x (length b)) as [L|L].
    - exists (map (fun y => x + y) (nls (skipn x b))). split; [now apply nls_split|]. intros y I. apply in_map_iff in I as (z & <- & I). apply nls_pos in I. lia.
    - exists []. rewrite firstn_all2 by lia. rewrite app_nil_r. split; auto. intros y []. }
  destruct SP as (B & SP & HB). pose proof (proj1 (table_nls b)) as SS. rewrite SP in *.
  destruct (search_split (0 :: nls (firstn x b)) B x) as [E|E]; auto.
  - intros y [<-|I]; [lia|]. apply nls_pos in I. rewrite firstn_length in I. lia.
  - discriminate.
  - change (0 :: nls (firstn x b) ++ B) with ((0 :: nls (firstn x b)) ++ B). rewrite E. simpl. f_equal. lia.
  - change (0 :: nls (firstn x b) ++ B) with ((0 :: nls (firstn x b)) ++ B). rewrite E. reflexivity.
Qed.
Lemma line_index_nb f x : wf f -> x <= length (s_text f) -> exists l, line_index f x = Val l /\ newlines_before (s_text f) x l.
Proof. intros W L. eexists. split; [now apply line_index_spec|]. apply nb_spec. auto. Qed.
Lemma nb_start b x l : newlines_before b x l -> exists s, s <= x /\ newlines_before b s l /\ line_begin b s /\ nth_error (0 :: nls b) l = Some s.
Proof.
  induction 1 as [|x n H IH B|x n c H IH B C].
  - exists 0. splits; auto; [constructor|left; auto].
  - assert (NB : newlines_before b (S x) (S n)) by (constructor; auto).
    assert (LB : line_begin b (S x)) by (right; now replace (S x - 1) with x by lia).
    exists (S x). splits; auto. now apply nth_start.
  - destruct IH as (s & L & N1 & LB & NT). exists s. splits; auto.
Qed.
