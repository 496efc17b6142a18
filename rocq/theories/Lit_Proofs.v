(** Proofs about literal patterns. *)
From Verif Require Import Base Text_Model Text_Spec Text_Proofs Cursor_Model Cursor_Spec Check_Model Program_Model Check_Spec
  Check_Proofs Program_Proofs Accept_Proofs Lit_Model Lit_Spec.

Lemma same_alike ci x y : same ci x y = true <-> alike ci x y.
Proof.
  unfold same, alike, lower. rewrite N.eqb_eq. destruct ci.
  - assert (B : forall c, (((65 <=? c) && (c <=? 90)) = true <-> 65 <= c <= 90)%N) by (intros c; rewrite andb_true_iff, !N.leb_le; reflexivity).
    assert (B' : forall c, (((65 <=? c) && (c <=? 90)) = false <-> ~ 65 <= c <= 90)%N) by (intros c; rewrite <- B; now destruct (_ && _)%bool).
    destruct ((65 <=? x) && (x <=? 90))%N eqn:X, ((65 <=? y) && (y <=? 90))%N eqn:Y; rewrite ?B, ?B' in X; rewrite ?B, ?B' in Y; split; try (intros [H|(_ & u & U & [[H K]|[H K]])]; lia); intros H.
    + left. lia.
    + right. split; auto. exists x. lia.
    + right. split; auto. exists y. lia.
    + left. lia.
  - split; [auto|]. intros [H|[H _]]; [auto|discriminate].
Qed.
Lemma starts_spec ci t : forall b, starts ci t b = true <->
  forall k x, nth_error t k = Some x -> exists y, nth_error b k = Some y /\ alike ci x y.
Proof.
  induction t as [|x t IH]; intros b; simpl.
  - split; auto. intros _ [|k] x H; discriminate.
  - destruct b as [|y b].
    + split; [discriminate|]. intros H. destruct (H 0 x eq_refl) as (? & H1 & _). discriminate.
    + rewrite andb_true_iff, IH, same_alike. split.
      * intros [A B] [|k] z K; simpl in K; [injection K as <-; exists y; auto|exact (B k z K)].
      * intros H. split; [destruct (H 0 x eq_refl) as (? & [= <-] & ?); auto|].
        intros k z K. exact (H (S k) z K).
Qed.
Lemma nth_error_skipn {A} (l : list A) i : forall k, nth_error (skipn i l) k = nth_error l (i + k).
Proof. revert l. induction i as [|i IH]; intros [|a l] k; simpl; auto; try (destruct k; reflexivity). Qed.
Lemma occurs_spec ci b e i t : occurs ci b e i t = true <-> i + length t <= e /\ text_at ci b t i.
Proof.
  unfold occurs, text_at. rewrite andb_true_iff, Nat.leb_le, starts_spec. 
  split; intros [A B]; split; auto; intros k x K; destruct (B k x K) as (y & Y & Q); exists y; split; auto.
  - now rewrite nth_error_skipn in Y.
  - now rewrite nth_error_skipn.
Qed.

Lemma leftmost_spec ci b p e n : forall s, s + n = e ->
  match leftmost ci b (lit_text p) e n s with
  | Some i => first_occurrence ci b p s e i
  | None => forall i, ~ occurrence ci b p s e i
  end.
Proof.
  induction n as [|n IH]; intros s E; simpl leftmost.
  - intros i (A & B & _). simpl in B. lia.
  - destruct (occurs ci b e s (lit_text p)) eqn:O.
    + apply occurs_spec in O as [A B]. split; [split; auto|]. intros j (H & _). exact H.
    + assert (NO : ~ occurrence ci b p s e s).
      { intros (_ & A & B). assert (occurs ci b e s (lit_text p) = true) by (apply occurs_spec; auto). congruence. }
      specialize (IH (S s) ltac:(lia)). destruct (leftmost ci b (lit_text p) e n (S s)) as [i|].
      * destruct IH as [(A & B & C) M]. split; [split; auto; lia|]. intros j (J1 & J2 & J3).
        destruct (Nat.eq_dec j s) as [->|]; [exfalso; apply NO; split; auto|]. apply M. split; auto; lia.
      * intros i (J1 & J2 & J3). destruct (Nat.eq_dec i s) as [->|]; [apply NO; split; auto|].
        apply (IH i). split; auto; lia.
Qed.

Lemma longest_some ci b e i ps : forall k k' p, longest ci b e i ps k = Some (k', p) ->
  k <= k' /\ nth_error ps (k' - k) = Some p /\ i + length (lit_text p) <= e /\ text_at ci b (lit_text p) i /\
  forall q, In q ps -> i + length (lit_text q) <= e -> text_at ci b (lit_text q) i -> length (lit_text q) <= length (lit_text p).
Proof.
  induction ps as [|a r IH]; intros k k' p H; [discriminate|]. cbn [longest] in H.
  destruct (occurs ci b e i (lit_text a)) eqn:O.
  - apply occurs_spec in O as [O1 O2].
    destruct (longest ci b e i r (S k)) as [[k2 q]|] eqn:Lg.
    + destruct (IH _ _ _ Lg) as (A & B & C & D & M).
      destruct (Nat.ltb_spec (length (lit_text a)) (length (lit_text q))) as [Q|Q]; injection H as <- <-.
      * splits; auto; try lia.
        -- replace (k2 - k) with (S (k2 - S k)) by lia. exact B.
        -- intros z [<-|Z] Z1 Z2; [lia|auto].
      * splits; auto; try lia; [now rewrite Nat.sub_diag|]. intros z [<-|Z] Z1 Z2; [lia|].
        specialize (M z Z Z1 Z2). lia.
    + injection H as <- <-. splits; auto; try lia; [now rewrite Nat.sub_diag|]. intros z [<-|Z] Z1 Z2; [lia|]. exfalso.
      clear - Z Z1 Z2 Lg. revert k Lg. induction r as [|c r IH]; intros k Lg; [contradiction|]. simpl in Lg.
      destruct (occurs ci b e i (lit_text c)) eqn:O.
      * destruct (longest ci b e i r (S (S k))) as [[? ?]|]; [destruct (_ <? _)|]; discriminate.
      * destruct Z as [->|Z]; [|eauto]. assert (occurs ci b e i (lit_text z) = true) by (apply occurs_spec; auto). congruence.
  - destruct (IH _ _ _ H) as (A & B & C & D & M). splits; auto; try lia.
    + replace (k' - k) with (S (k' - S k)) by lia. exact B.
    + intros z [<-|Z] Z1 Z2; [|auto]. assert (occurs ci b e i (lit_text a) = true) by (apply occurs_spec; auto). congruence.
Qed.
Lemma longest_none ci b e i ps : forall k, longest ci b e i ps k = None ->
  forall q, In q ps -> ~ (i + length (lit_text q) <= e /\ text_at ci b (lit_text q) i).
Proof.
  induction ps as [|a r IH]; intros k H q Q; [contradiction|]. cbn [longest] in H.
  destruct (occurs ci b e i (lit_text a)) eqn:O.
  - destruct (longest ci b e i r (S k)) as [[? ?]|]; [destruct (_ <? _)|]; discriminate.
  - destruct Q as [->|Q]; [|eauto]. intros X. apply occurs_spec in X. congruence.
Qed.

Lemma leftmost_set_spec ci b ps e n : forall s, s + n = e ->
  match leftmost_set ci b ps e n s with
  | Some (i, k, p) => nth_error ps k = Some p /\ occurrence ci b p s e i /\
      (forall q j, In q ps -> occurrence ci b q s e j -> i <= j) /\
      (forall q, In q ps -> occurrence ci b q s e i -> length (lit_text q) <= length (lit_text p))
  | None => forall q i, In q ps -> ~ occurrence ci b q s e i
  end.
Proof.
  induction n as [|n IH]; intros s E; simpl leftmost_set.
  - intros q i _ (A & B & _). simpl in B. lia.
  - destruct (longest ci b e s ps 0) as [[k p]|] eqn:Lg.
    + apply longest_some in Lg as (_ & A & B & C & M). rewrite Nat.sub_0_r in A. splits; auto.
      * split; auto.
      * intros q j _ (J & _). exact J.
      * intros q Q (_ & J1 & J2). auto.
    + pose proof (longest_none _ _ _ _ _ _ Lg) as NO. specialize (IH (S s) ltac:(lia)).
      destruct (leftmost_set ci b ps e n (S s)) as [[[i k] p]|].
      * destruct IH as (A & (B1 & B2 & B3) & M & ML). splits; auto.
        -- split; auto. lia.
        -- intros q j Q (J1 & J2 & J3). destruct (Nat.eq_dec j s) as [->|]; [exact (False_ind _ (NO q Q (conj J2 J3)))|].
           apply (M q); auto. split; auto; lia.
        -- intros q Q (J1 & J2 & J3). apply ML; auto. split; auto.
      * intros q i Q (J1 & J2 & J3). destruct (Nat.eq_dec i s) as [->|]; [exact (NO q Q (conj J2 J3))|].
        apply (IH q i Q). split; [lia|split; auto].
Qed.

(** * sets *)
Lemma dedup_incl ps : forall seen q, In q (dedup seen ps) -> In q ps.
Proof.
  induction ps as [|p r IH]; intros seen q H; [contradiction|]. cbn [dedup] in H.
  destruct (existsb (str_eqb (lit_text p)) seen); [right; eauto|]. destruct H as [->|H]; [left; auto|right; eauto].
Qed.
Lemma dedup_covers ps : forall seen q, In q ps -> In (lit_text q) seen \/ exists q', In q' (dedup seen ps) /\ lit_text q' = lit_text q.
Proof.
  induction ps as [|p r IH]; intros seen q H; [contradiction|]. cbn [dedup].
  destruct (existsb (str_eqb (lit_text p)) seen) eqn:X.
  - apply existsb_exists in X as (t & T & TE). apply str_eqb_eq in TE. destruct H as [->|H]; [left; rewrite TE; exact T|auto].
  - destruct H as [->|H]; [right; exists q; simpl; auto|].
    destruct (IH (seen ++ [lit_text p]) q H) as [I|(q' & I & E)].
    + apply in_app_or in I as [I|[I|[]]]; auto. right. exists p. simpl; auto.
    + right. exists q'. simpl; auto.
Qed.
Lemma dedup_nil ps : ps <> [] -> dedup [] ps <> [].
Proof. destruct ps; simpl; intros; congruence. Qed.
Lemma dedup_nodup ps : forall seen, NoDup (map lit_text (dedup seen ps)) /\ forall q, In q (dedup seen ps) -> ~ In (lit_text q) seen.
Proof.
  induction ps as [|p r IH]; intros seen; cbn [dedup]; [split; [constructor|intros q []]|].
  destruct (existsb (str_eqb (lit_text p)) seen) eqn:X; [apply IH|].
  destruct (IH (seen ++ [lit_text p])) as [A B]. split.
  - simpl. constructor; auto. intros I. apply in_map_iff in I as (q & Q & I). apply (B q I). rewrite Q. apply in_or_app; simpl; auto.
  - intros q [<-|Q] I.
    + assert (existsb (str_eqb (lit_text p)) seen = true) by (apply existsb_exists; exists (lit_text p); split; auto; apply str_eqb_refl). congruence.
    + apply (B q Q). apply in_or_app; auto.
Qed.
Lemma dedup_id ps : NoDup (map lit_text ps) -> dedup [] ps = ps.
Proof.
  assert (G : forall seen, NoDup (map lit_text ps) -> (forall q, In q ps -> ~ In (lit_text q) seen) -> dedup seen ps = ps).
  { induction ps as [|p r IH]; intros seen N D; auto. cbn [dedup]. inversion N; subst.
    destruct (existsb (str_eqb (lit_text p)) seen) eqn:X.
    - apply existsb_exists in X as (t & T & TE). apply str_eqb_eq in TE. exfalso. apply (D p (or_introl eq_refl)). rewrite TE. exact T.
    - f_equal. apply IH; auto. intros q Q I. apply in_app_or in I as [I|[I|[]]].
      + apply (D q); simpl; auto.
      + apply H1. rewrite I. now apply in_map. }
  intros N. apply G; auto.
Qed.

(** * the DAG visitor *)
Definition got_ok (ps : list lit) (b : bytes) (s start : nat) (got : matches) : Prop :=
  (forall m, In m got -> exists i p, m_ty m = Good /\ m_info m = Some i /\ nth_error ps (i_id i) = Some p /\
      i_span i = mkRange (rstart (i_span i)) (rstart (i_span i) + length (lit_text p)) /\ text_at false b (lit_text p) (rstart (i_span i)) /\
      s <= rstart (i_span i) /\ rend (i_span i) <= start) /\
  in_order s (infos got) /\ last_end s (infos got) <= start /\
  NoDup (map i_id (infos got)).

Lemma nodup_snoc {A} (l : list A) x : NoDup l -> ~ In x l -> NoDup (l ++ [x]).
Proof.
  intros H. induction H as [|y l NI H IH]; intros NX; simpl; [repeat constructor; auto|].
  constructor; [|apply IH; intros Q; apply NX; simpl; auto].
  intros I. apply in_app_or in I as [I|[I|[]]]; auto. apply NX. simpl; auto.
Qed.
Lemma infos_app a c : infos (a ++ c) = infos a ++ infos c.
Proof. induction a as [|m a IH]; simpl; auto. destruct (m_info m); simpl; now rewrite IH. Qed.
Lemma in_order_app a c : forall s, in_order s (a ++ c) <-> in_order s a /\ in_order (last_end s a) c.
Proof. induction a as [|i a IH]; intros s; simpl; [tauto|]. rewrite IH. tauto. Qed.
Lemma last_end_app a c : forall s, last_end s (a ++ c) = last_end (last_end s a) c.
Proof. induction a as [|i a IH]; intros s; simpl; auto. Qed.

Lemma push_last got m i : m_info m = Some i -> (forall x, In x got -> exists j, m_info x = Some j /\ rstart (i_span j) < rstart (i_span i)) ->
  ms_push got m = got ++ [m].
Proof.
  intros M. induction got as [|x r IH]; intros H; simpl; auto.
  destruct (H x (or_introl eq_refl)) as (j & J & LT). unfold before. rewrite J, M. unfold info_cmp.
  apply Nat.compare_lt_iff in LT. rewrite LT. f_equal. apply IH. intros y Y. apply H. simpl; auto.
Qed.

Lemma same_id_in k got : existsb (same_id k) got = true <-> In k (map i_id (infos got)).
Proof.
  rewrite existsb_exists. split.
  - intros (m & M & S). unfold same_id in S. destruct (m_info m) as [i|] eqn:I; [|discriminate]. apply Nat.eqb_eq in S.
    apply in_map_iff. exists i. split; auto. clear - M I. induction got as [|x r IH]; [contradiction|]. simpl.
    destruct M as [->|M]; [rewrite I; simpl; auto|]. destruct (m_info x); simpl; auto.
  - intros H. apply in_map_iff in H as (i & <- & H). clear - H. induction got as [|x r IH]; [contradiction|]. simpl in H.
    destruct (m_info x) eqn:I.
    + destruct H as [->|H].
      * exists x. split; [left; auto|]. unfold same_id. rewrite I. apply Nat.eqb_refl.
      * destruct (IH H) as (y & M & Q). exists y. split; [right|]; auto.
    + destruct (IH H) as (y & M & Q). exists y. split; [right|]; auto.
Qed.

Lemma push_failed_not_ok ms er : ms_ok (ms_push ms (failed er)) = false.
Proof.
  unfold ms_ok. induction ms as [|x r IH]; cbn [ms_push forallb]; auto.
  assert (B : before x (failed er) = true) by (unfold before; destruct (m_info x); reflexivity).
  rewrite B. cbn [forallb]. rewrite IH. apply andb_false_r.
Qed.
Lemma push_keeps_bad ms m : ms_ok ms = false -> ms_ok (ms_push ms m) = false.
Proof.
  unfold ms_ok. induction ms as [|x r IH]; cbn [ms_push forallb]; [discriminate|]. intros H.
  destruct (before x m); cbn [forallb]; [|rewrite H; apply andb_false_r].
  apply andb_false_iff in H as [->|H]; auto. rewrite IH by auto. apply andb_false_r.
Qed.
Lemma missing_bad n : forall k got acc, ms_ok acc = false \/ (exists j, k <= j < k + n /\ ~ In j (map i_id (infos got))) ->
  ms_ok (missing n k got acc) = false.
Proof.
  induction n as [|n IH]; intros k got acc H; cbn [missing].
  - destruct H as [H|(j & J & _)]; [auto|lia].
  - apply IH. destruct H as [H|(j & J & NJ)].
    + left. destruct (existsb _ got); auto using push_keeps_bad.
    + destruct (Nat.eq_dec j k) as [->|NE].
      * left. destruct (existsb (same_id k) got) eqn:X; [apply same_id_in in X; contradiction|]. apply push_failed_not_ok.
      * right. exists j. split; auto. lia.
Qed.

Lemma got_all_info ps b s start got : got_ok ps b s start got -> length (infos got) = length got.
Proof.
  intros (A & _). induction got as [|m r IH]; auto. simpl.
  destruct (A m (or_introl eq_refl)) as (i & p & _ & I & _). rewrite I. simpl. f_equal. apply IH. intros x X. apply A. simpl; auto.
Qed.
Lemma got_ids ps b s start got : got_ok ps b s start got -> forall k, In k (map i_id (infos got)) -> k < length ps.
Proof.
  intros (A & _) k K. apply in_map_iff in K as (i & <- & K).
  assert (X : exists m, In m got /\ m_info m = Some i).
  { clear - K. induction got as [|m r IH]; [contradiction|]. simpl in K. destruct (m_info m) eqn:I.
    - destruct K as [->|K]; [exists m; simpl; auto|]. destruct (IH K) as (x & ? & ?). exists x; simpl; auto.
    - destruct (IH K) as (x & ? & ?). exists x; simpl; auto. }
  destruct X as (m & M & I). destruct (A m M) as (i' & p & _ & I' & N & _). rewrite I in I'. injection I' as <-.
  apply nth_error_Some. congruence.
Qed.
Lemma got_len ps b s start got : got_ok ps b s start got -> length got <= length ps.
Proof.
  intros G. pose proof (got_ids _ _ _ _ _ G) as I. pose proof (got_all_info _ _ _ _ _ G) as LI. destruct G as (_ & _ & _ & ND).
  rewrite <- LI, <- (map_length i_id). rewrite <- (seq_length (length ps) 0).
  apply NoDup_incl_length; auto. intros k K. apply in_seq. specialize (I k K). lia.
Qed.
Lemma got_missing ps b s start got : got_ok ps b s start got -> length got < length ps ->
  exists j, 0 <= j < 0 + length ps /\ ~ In j (map i_id (infos got)).
Proof.
  intros G L.
  destruct (Forall_Exists_dec (fun j => In j (map i_id (infos got))) (fun j => in_dec Nat.eq_dec j _) (seq 0 (length ps))) as [F|F].
  - exfalso. rewrite Forall_forall in F. pose proof (NoDup_incl_length (seq_NoDup (length ps) 0) F) as X.
    rewrite seq_length, map_length, (got_all_info _ _ _ _ _ G) in X. lia.
  - apply Exists_exists in F as (j & J & N). apply in_seq in J. exists j. split; [lia|auto].
Qed.

(** what a successful visit gives *)
Definition dag_result (ps : list lit) (b : bytes) (s e : nat) (ms : matches) : Prop :=
  exists start, start <= e /\ got_ok ps b s start ms /\ length ms = length ps.

Lemma visit_ok fuel : forall b ps s e start got, e <= length b -> s <= start <= e -> e - start < fuel ->
  got_ok ps b s start got -> length got < length ps ->
  exists ms pos, visit fuel b ps e start got = Val (ms, pos) /\
    (ms_ok ms = true -> dag_result ps b s e ms /\ pos = Some (last_end s (infos ms))).
Proof.
  induction fuel as [|fuel IH]; intros b ps s e start got EL SE FU G LG; [lia|]. cbn [visit].
  pose proof (leftmost_set_spec false b ps e (e - start) start ltac:(lia)) as LS.
  destruct (leftmost_set false b ps e (e - start) start) as [[[i k] p]|].
  - destruct LS as (N & (O1 & O2 & O3) & _). set (stop := i + length (lit_text p)) in *.
    assert (SI : start < stop) by (unfold stop; simpl; lia).
    destruct (existsb (same_id k) got || existsb (inside i stop) got)%bool eqn:SK.
    + apply IH; auto; try lia. destruct G as (A & B & C & D). split; [|split; [|split]]; auto; try lia.
      intros m M. destruct (A m M) as (j & q & X1 & X2 & X3 & X4 & X5 & X6 & X7). exists j, q. splits; auto. lia.
    + apply orb_false_iff in SK as [SK _].
      set (m := mkRes Good (Some (mkInfo (mkRange i stop) k (lit_span p)))).
      assert (PL : ms_push got m = got ++ [m]).
      { apply (push_last got m (mkInfo (mkRange i stop) k (lit_span p))); [reflexivity|].
        intros x X. destruct G as (A & _). destruct (A x X) as (j & q & _ & J & _ & SP & _ & _ & EN). exists j. split; auto.
        rewrite SP in EN. simpl in EN. simpl. lia. }
      rewrite PL.
      assert (G' : got_ok ps b s stop (got ++ [m])).
      { destruct G as (A & B & C & D). split; [|split; [|split]].
        - intros x X. apply in_app_or in X as [X|[<-|[]]].
          + destruct (A x X) as (j & q & X1 & X2 & X3 & X4 & X5 & X6 & X7). exists j, q. splits; auto. lia.
          + eexists; exists p. splits; try reflexivity; simpl; auto; try lia.
        - rewrite infos_app. apply in_order_app. split; auto. simpl. split; auto. unfold stop. simpl. lia.
        - rewrite infos_app, last_end_app. simpl. lia.
        - rewrite infos_app, map_app. simpl. apply nodup_snoc; auto.
          intros X. apply same_id_in in X. congruence. }
      destruct (Nat.eqb_spec (length ps) (length (got ++ [m]))) as [Q|Q].
      * eexists _, _. split; [reflexivity|]. intros _. split; [exists stop; auto|].
        rewrite infos_app, last_end_app. reflexivity.
      * apply IH; auto; try lia. pose proof (got_len _ _ _ _ _ G'). lia.
  - destruct (Nat.eqb_spec (length ps) (length got)) as [Q|Q]; [lia|]. eexists _, _. split; [reflexivity|]. intros MO. exfalso.
    rewrite missing_bad in MO; [discriminate|]. right. eapply got_missing; eauto.
Qed.

(** * the language *)
Lemma got_start ps b s : got_ok ps b s s [].
Proof. split; [intros m []|]. simpl. splits; auto. constructor. Qed.

Lemma lit_dag_run ps b s e : s <= e <= length b -> ps <> [] ->
  exists ms pos, lit_dag ps b (mkRange s e) = Val (ms, pos) /\
    (ms_ok ms = true -> dag_result (dedup [] ps) b s e ms /\ pos = Some (last_end s (infos ms))).
Proof.
  intros H NE. unfold lit_dag. cbn [rstart rend]. apply visit_ok; try lia; auto using got_start.
  pose proof (dedup_nil ps NE). destruct (dedup [] ps); [congruence|simpl; lia].
Qed.
Lemma got_good ps b s start e ms : got_ok ps b s start ms -> start <= e -> Forall (good_info (mkRange s e)) ms.
Proof.
  intros (A & _) SE. apply Forall_forall. intros m M. destruct (A m M) as (i & p & T & I & _ & SP & _ & X & Y).
  split; auto. exists i. rewrite SP in Y. rewrite SP. simpl in *. splits; auto; lia.
Qed.

Theorem lit_lang_ok ci : lang_ok (lit_lang ci).
Proof.
  constructor; cbn [pm nm dm lit_lang pat env].
  - intros p b s e en H. eexists _, en. split; [reflexivity|]. unfold lit_match. cbn [rstart rend].
    pose proof (leftmost_spec ci b p e (e - s) s ltac:(lia)) as LS.
    destruct (leftmost ci b (lit_text p) e (e - s) s) as [i|].
    + left. destruct LS as [(A & B & _) _]. split; [reflexivity|]. eexists; split; [reflexivity|]. cbn [i_span rstart rend]. lia.
    + right. exists ENone. split; reflexivity.
  - intros ps b s e en H. eexists. split; [reflexivity|]. unfold lit_any. cbn [rstart rend].
    pose proof (leftmost_set_spec ci b (dedup [] ps) e (e - s) s ltac:(lia)) as LS.
    destruct (leftmost_set ci b (dedup [] ps) e (e - s) s) as [[[i k] p]|]; [|discriminate]. intros _.
    destruct LS as (_ & (A & B & _) & _). split; [reflexivity|]. eexists; split; [reflexivity|]. cbn [i_span rstart rend]. lia.
  - intros ps b s e en1 en2 m1 m2 _ H1 H2. injection H1 as <-. injection H2 as <-. reflexivity.
  - intros ps b s e en H NE. destruct (lit_dag_run ps b s e H NE) as (ms & pos & -> & K). cbn [bind].
    eexists ms, en, pos. split; [reflexivity|]. intros MO. destruct (K MO) as ((start & SE & G & LE) & ->).
    splits; auto.
    + pose proof (dedup_nil ps NE). destruct (dedup [] ps); [congruence|]. destruct ms; [discriminate|congruence].
    + eapply got_good; eauto.
    + apply G.
Qed.

(** * single patterns *)
Lemma first_unique ci b p s e i j : first_occurrence ci b p s e i -> first_occurrence ci b p s e j -> i = j.
Proof. intros [A1 A2] [B1 B2]. specialize (A2 _ B1). specialize (B2 _ A1). lia. Qed.

Lemma found_lit ci b p s e en i en' : s <= e ->
  found (L:=lit_lang ci) b p s e en i en' <-> exists k, first_occurrence ci b p s e k /\ i = lit_info p k.
Proof.
  intros H. unfold found. cbn [pm lit_lang pat env]. unfold lit_match. cbn [rstart rend].
  pose proof (leftmost_spec ci b p e (e - s) s ltac:(lia)) as LS.
  destruct (leftmost ci b (lit_text p) e (e - s) s) as [k|]; split.
  - intros (m & M & T & I). injection M as <- _. injection I as <-. exists k. auto.
  - intros (k' & K & ->). rewrite (first_unique _ _ _ _ _ _ _ K LS). destruct en, en'. eexists. splits; reflexivity.
  - intros (m & M & T & I). injection M as <- _. discriminate.
  - intros (k & [K _] & _). exfalso. eapply LS; eauto.
Qed.
Lemma occurrence_first ci b p s e i : s <= e -> occurrence ci b p s e i -> exists k, first_occurrence ci b p s e k.
Proof.
  intros H O. pose proof (leftmost_spec ci b p e (e - s) s ltac:(lia)) as LS.
  destruct (leftmost ci b (lit_text p) e (e - s) s) as [k|]; eauto. exfalso. eapply LS; eauto.
Qed.
Lemma absent_lit ci b ps s e en : s <= e -> absent (L:=lit_lang ci) b ps s e en <->
  forall p i, In p ps -> ~ occurrence ci b p s e i.
Proof.
  intros H. unfold absent. cbn [nm lit_lang pat env]. unfold lit_any. cbn [rstart rend].
  pose proof (leftmost_set_spec ci b (dedup [] ps) e (e - s) s ltac:(lia)) as LS.
  destruct (leftmost_set ci b (dedup [] ps) e (e - s) s) as [[[i k] p]|]; split.
  - intros [->|(m & en' & M & X)]; [intros p' i' []|]. injection M as <- _. discriminate.
  - intros NO. exfalso. destruct LS as (N & O & _). apply (NO p i); auto. apply nth_error_In in N. eapply dedup_incl; eauto.
  - intros _ p i P O. destruct (dedup_covers ps [] p P) as [[]|(q & Q & T)]. apply (LS q i Q).
    unfold occurrence in *. now rewrite T.
  - intros _. right. eexists _, en. split; reflexivity.
Qed.

(** * CHECK-DAG does not depend on the order of the directives *)
Lemma text_at_slice b t i : text_at false b t i -> firstn (length t) (skipn i b) = t.
Proof.
  intros H. assert (K : forall k x, nth_error t k = Some x -> nth_error (skipn i b) k = Some x).
  { intros k x X. destruct (H k x X) as (y & Y & S). destruct S as [S|[S _]]; [|discriminate]. subst y. now rewrite nth_error_skipn. }
  clear H. revert K. generalize (skipn i b) as l. induction t as [|x t IH]; intros l K; auto.
  destruct l as [|y l]; [specialize (K 0 x eq_refl); discriminate|].
  pose proof (K 0 x eq_refl) as E0. injection E0 as ->. simpl. f_equal. apply IH. intros k z Z. exact (K (S k) z Z).
Qed.
Lemma text_at_unique b t t' i : text_at false b t i -> text_at false b t' i -> length t = length t' -> t = t'.
Proof. intros H H' LN. apply text_at_slice in H, H'. rewrite LN in H. congruence. Qed.

Definition same_texts (ps ps' : list lit) : Prop := forall t, In t (map lit_text ps) <-> In t (map lit_text ps').
Lemma leftmost_set_same ci b ps ps' e n s : s + n = e -> same_texts ps ps' ->
  match leftmost_set ci b ps e n s, leftmost_set ci b ps' e n s with
  | Some (i, _, p), Some (i', _, p') => i = i' /\ length (lit_text p) = length (lit_text p')
  | None, None => True
  | _, _ => False
  end.
Proof.
  intros SE ST. pose proof (leftmost_set_spec ci b ps e n s SE) as A. pose proof (leftmost_set_spec ci b ps' e n s SE) as B.
  assert (T1 : forall q, In q ps -> exists q', In q' ps' /\ lit_text q' = lit_text q).
  { intros q Q. assert (I : In (lit_text q) (map lit_text ps')) by (apply ST; now apply in_map).
    apply in_map_iff in I as (q' & ? & ?). eauto. }
  assert (T2 : forall q, In q ps' -> exists q', In q' ps /\ lit_text q' = lit_text q).
  { intros q Q. assert (I : In (lit_text q) (map lit_text ps)) by (apply ST; now apply in_map).
    apply in_map_iff in I as (q' & ? & ?). eauto. }
  assert (OC : forall q q' i, lit_text q' = lit_text q -> occurrence ci b q s e i -> occurrence ci b q' s e i).
  { intros q q' i T O. unfold occurrence in *. now rewrite T. }
  destruct (leftmost_set ci b ps e n s) as [[[i k] p]|]; destruct (leftmost_set ci b ps' e n s) as [[[i' k'] p']|]; auto.
  - destruct A as (A1 & A2 & A3 & A4), B as (B1 & B2 & B3 & B4). apply nth_error_In in A1, B1.
    destruct (T1 p A1) as (q' & Q' & E'). destruct (T2 p' B1) as (q & Q & E0).
    pose proof (OC _ _ _ E' A2) as O'. pose proof (OC _ _ _ E0 B2) as O.
    assert (i = i') by (pose proof (A3 _ _ Q O); pose proof (B3 _ _ Q' O'); lia). subst i'. split; auto.
    pose proof (A4 _ Q O). pose proof (B4 _ Q' O'). rewrite E0 in H. rewrite E' in H0. lia.
  - destruct A as (A1 & A2 & _). apply nth_error_In in A1. destruct (T1 p A1) as (q' & Q' & E'). exact (B _ _ Q' (OC _ _ _ E' A2)).
  - destruct B as (B1 & B2 & _). apply nth_error_In in B1. destruct (T2 p' B1) as (q & Q & E0). exact (A _ _ Q (OC _ _ _ E0 B2)).
Qed.

Lemma same_id_text ps b s start got k p : got_ok ps b s start got -> NoDup (map lit_text ps) -> nth_error ps k = Some p ->
  existsb (same_id k) got = true <->
  exists i, In i (infos got) /\ firstn (rend (i_span i) - rstart (i_span i)) (skipn (rstart (i_span i)) b) = lit_text p.
Proof.
  intros G ND K. rewrite same_id_in, in_map_iff.
  assert (TX : forall i, In i (infos got) -> exists q, nth_error ps (i_id i) = Some q /\
     firstn (rend (i_span i) - rstart (i_span i)) (skipn (rstart (i_span i)) b) = lit_text q).
  { intros i I. assert (X : exists m, In m got /\ m_info m = Some i).
    { clear - I. induction got as [|m r IH]; [contradiction|]. simpl in I. destruct (m_info m) eqn:M.
      - destruct I as [->|I]; [exists m; simpl; auto|]. destruct (IH I) as (x & ? & ?). exists x; simpl; auto.
      - destruct (IH I) as (x & ? & ?). exists x; simpl; auto. }
    destruct X as (m & M & MI). destruct G as (A & _). destruct (A m M) as (i' & q & _ & MI' & NQ & SP & TA & _).
    rewrite MI in MI'. injection MI' as <-. exists q. split; auto. apply text_at_slice in TA.
    replace (rend (i_span i) - rstart (i_span i)) with (length (lit_text q)); auto. rewrite SP. simpl. lia. }
  split.
  - intros (i & <- & I). exists i. split; auto. destruct (TX i I) as (q & Q & T). congruence.
  - intros (i & I & T). exists i. split; auto. destruct (TX i I) as (q & Q & T'). rewrite T in T'.
    assert (Q1 : nth_error (map lit_text ps) (i_id i) = Some (lit_text q)) by (now apply map_nth_error).
    assert (K1 : nth_error (map lit_text ps) k = Some (lit_text p)) by (now apply map_nth_error).
    rewrite NoDup_nth_error in ND. apply ND; [apply nth_error_Some; congruence|congruence].
Qed.

Definition spans (ms : matches) : list range := map i_span (infos ms).
Lemma inside_spans i j got : (forall m, In m got -> m_info m <> None) ->
  existsb (inside i j) got = existsb (fun r => (range_contains r i || range_contains r j)%bool) (spans got).
Proof.
  unfold spans. induction got as [|m r IH]; intros H; auto. cbn [existsb infos].
  unfold inside at 1. destruct (m_info m) eqn:M; [|exfalso; apply (H m); simpl; auto].
  cbn [map existsb]. now rewrite IH by (intros; apply H; simpl; auto).
Qed.
Lemma got_info ps b s start got : got_ok ps b s start got -> forall m, In m got -> m_info m <> None.
Proof. intros (A & _) m M. destruct (A m M) as (i & p & _ & I & _). congruence. Qed.
Lemma spans_ids (P : range -> Prop) got : (exists i, In i (infos got) /\ P (i_span i)) <-> exists r, In r (spans got) /\ P r.
Proof.
  unfold spans. split.
  - intros (i & I & X). exists (i_span i). split; auto. now apply in_map.
  - intros (r & R & X). apply in_map_iff in R as (i & <- & I). eauto.
Qed.

Lemma visit_same fuel : forall b ps ps' s e start got got', e <= length b -> s <= start <= e -> e - start < fuel ->
  NoDup (map lit_text ps) -> NoDup (map lit_text ps') -> same_texts ps ps' ->
  got_ok ps b s start got -> got_ok ps' b s start got' -> spans got = spans got' -> length got < length ps ->
  exists ms pos ms' pos', visit fuel b ps e start got = Val (ms, pos) /\ visit fuel b ps' e start got' = Val (ms', pos') /\
    ms_ok ms = ms_ok ms' /\ (ms_ok ms = true -> spans ms = spans ms').
Proof.
  induction fuel as [|fuel IH]; intros b ps ps' s e start got got' EL SE FU N1 N2 ST G G' SP LG; [lia|]. cbn [visit].
  assert (LP : length ps = length ps').
  { rewrite <- (map_length lit_text ps), <- (map_length lit_text ps').
    apply Nat.le_antisymm; apply NoDup_incl_length; auto; intros t; apply ST. }
  assert (LE : length got = length got').
  { rewrite <- (got_all_info _ _ _ _ _ G), <- (got_all_info _ _ _ _ _ G').
    rewrite <- (map_length i_span (infos got)), <- (map_length i_span (infos got')). unfold spans in SP. congruence. }
  pose proof (leftmost_set_same false b ps ps' e (e - start) start ltac:(lia) ST) as LS.
  pose proof (leftmost_set_spec false b ps e (e - start) start ltac:(lia)) as L1.
  pose proof (leftmost_set_spec false b ps' e (e - start) start ltac:(lia)) as L2.
  destruct (leftmost_set false b ps e (e - start) start) as [[[i k] p]|];
  destruct (leftmost_set false b ps' e (e - start) start) as [[[i' k'] p']|]; try contradiction.
  - destruct LS as [<- LN]. destruct L1 as (K1 & (O1 & O2 & O3) & _), L2 as (K2 & (O1' & O2' & O3') & _).
    assert (TE : lit_text p = lit_text p') by (eapply text_at_unique; eauto).
    rewrite <- TE. set (stop := i + length (lit_text p)) in *.
    assert (SI : start < stop) by (unfold stop; simpl; lia).
    assert (C1 : existsb (same_id k) got = existsb (same_id k') got').
    { apply eq_true_iff_eq. rewrite (same_id_text _ _ _ _ _ _ _ G N1 K1), (same_id_text _ _ _ _ _ _ _ G' N2 K2), TE.
      rewrite (spans_ids (fun r => firstn (rend r - rstart r) (skipn (rstart r) b) = lit_text p') got).
      rewrite (spans_ids (fun r => firstn (rend r - rstart r) (skipn (rstart r) b) = lit_text p') got'). now rewrite SP. }
    assert (C2 : existsb (inside i stop) got = existsb (inside i stop) got').
    { rewrite (inside_spans i stop got) by (eapply got_info; eauto). rewrite (inside_spans i stop got') by (eapply got_info; eauto). now rewrite SP. }
    rewrite <- C1, <- C2.
    assert (MORE : forall ps0 g0, got_ok ps0 b s start g0 -> got_ok ps0 b s stop g0).
    { intros ps0 g0 (A & B & C & D). split; [|split; [|split]]; auto; try lia.
      intros m M. destruct (A m M) as (j & q & X1 & X2 & X3 & X4 & X5 & X6 & X7). exists j, q. splits; auto. lia. }
    destruct (existsb (same_id k) got || existsb (inside i stop) got)%bool eqn:SK.
    + apply (IH b ps ps' s e stop got got'); auto; lia.
    + apply orb_false_iff in SK as [SK _].
      set (m := mkRes Good (Some (mkInfo (mkRange i stop) k (lit_span p)))).
      set (m' := mkRes Good (Some (mkInfo (mkRange i stop) k' (lit_span p')))).
      assert (PUSH : forall ps0 g0 q0 k0, got_ok ps0 b s start g0 -> nth_error ps0 k0 = Some q0 -> lit_text q0 = lit_text p ->
        existsb (same_id k0) g0 = false ->
        ms_push g0 (mkRes Good (Some (mkInfo (mkRange i stop) k0 (lit_span q0)))) = g0 ++ [mkRes Good (Some (mkInfo (mkRange i stop) k0 (lit_span q0)))] /\
        got_ok ps0 b s stop (g0 ++ [mkRes Good (Some (mkInfo (mkRange i stop) k0 (lit_span q0)))])).
      { intros ps0 g0 q0 k0 G0 K0 T0 SK0. split.
        - apply (push_last g0 _ (mkInfo (mkRange i stop) k0 (lit_span q0))); [reflexivity|].
          intros x X. destruct G0 as (A & _). destruct (A x X) as (j & q & _ & J & _ & SPx & _ & _ & EN). exists j. split; auto.
          rewrite SPx in EN. simpl in EN. simpl. lia.
        - destruct G0 as (A & B & C & D). split; [|split; [|split]].
          + intros x X. apply in_app_or in X as [X|[<-|[]]].
            * destruct (A x X) as (j & q & X1 & X2 & X3 & X4 & X5 & X6 & X7). exists j, q. splits; auto. lia.
            * eexists; exists q0. splits; try reflexivity; simpl; auto; try lia.
              -- unfold stop. change (S (length (lit_tl q0))) with (length (lit_text q0)). now rewrite T0.
              -- change (lit_hd q0 :: lit_tl q0) with (lit_text q0). now rewrite T0.
          + rewrite infos_app. apply in_order_app. split; auto. simpl. split; auto. unfold stop. simpl. lia.
          + rewrite infos_app, last_end_app. simpl. lia.
          + rewrite infos_app, map_app. simpl. apply nodup_snoc; auto. intros X. apply same_id_in in X. congruence. }
      destruct (PUSH ps got p k G K1 eq_refl SK) as [PL GL]. destruct (PUSH ps' got' p' k' G' K2 (eq_sym TE)) as [PL' GL']; [congruence|].
      fold m in PL, GL. fold m' in PL', GL'. rewrite PL, PL'.
      assert (SP2 : spans (got ++ [m]) = spans (got' ++ [m'])) by (unfold spans in *; rewrite !infos_app, !map_app, SP; reflexivity).
      assert (OKA : ms_ok (got ++ [m]) = true /\ ms_ok (got' ++ [m']) = true).
      { assert (Z : forall ps0 g0 st, got_ok ps0 b s st g0 -> ms_ok g0 = true).
        { intros ps0 g0 st (A & _). apply forallb_forall. intros x X. destruct (A x X) as (j & q & T & _). unfold m_is_ok. now rewrite T. }
        split; eapply Z; eauto. }
      rewrite !app_length, <- LP, <- LE. simpl length.
      destruct (Nat.eqb_spec (length ps) (length got + 1)) as [Q|Q].
      * eexists _, _, _, _. splits; try reflexivity; destruct OKA; [congruence|auto].
      * apply (IH b ps ps' s e stop); auto; try lia. rewrite app_length. simpl. lia.
  - destruct (Nat.eqb_spec (length ps) (length got)) as [Q|Q]; [lia|].
    destruct (Nat.eqb_spec (length ps') (length got')) as [Q'|Q']; [lia|].
    eexists _, _, _, _. splits; try reflexivity.
    + rewrite (missing_bad (length ps) 0 got got), (missing_bad (length ps') 0 got' got'); auto; right; eapply got_missing; eauto; lia.
    + rewrite (missing_bad (length ps) 0 got got); [discriminate|]. right; eapply got_missing; eauto; lia.
Qed.

Lemma dedup_texts ps : same_texts (dedup [] ps) ps.
Proof.
  intros t. rewrite !in_map_iff. split.
  - intros (q & <- & Q). exists q. split; auto. eapply dedup_incl; eauto.
  - intros (q & <- & Q). destruct (dedup_covers ps [] q Q) as [[]|(q' & Q' & T)]. eauto.
Qed.
Lemma same_texts_nil ps ps' : same_texts ps ps' -> ps <> [] -> ps' <> [].
Proof. intros H N ->. destruct ps as [|p ps]; [congruence|]. destruct (proj1 (H (lit_text p))); simpl; auto. Qed.
Lemma lit_dag_same ps ps' b s e : s <= e <= length b -> ps <> [] -> same_texts ps ps' ->
  exists ms pos ms' pos', lit_dag ps b (mkRange s e) = Val (ms, pos) /\ lit_dag ps' b (mkRange s e) = Val (ms', pos') /\
    ms_ok ms = ms_ok ms' /\ (ms_ok ms = true -> spans ms = spans ms').
Proof.
  intros H NE ST. unfold lit_dag. cbn [rstart rend]. apply (visit_same _ b _ _ s); try lia; auto using got_start.
  - apply (dedup_nodup ps []).
  - apply (dedup_nodup ps' []).
  - intros t. rewrite (dedup_texts ps t), (dedup_texts ps' t). apply ST.
  - pose proof (dedup_nil ps NE). destruct (dedup [] ps); [congruence|simpl; lia].
Qed.

(** * CHECK-NOT regions *)
Definition is_not {L} (l : line L) : bool := match l_kind l with KNot => true | _ => false end.
Definition positives {L} (ls : list (line L)) : list (line L) := filter (fun l => negb (is_not l)) ls.
Definition first_or (e : nat) (out : list minfo) : nat := match out with [] => e | i :: _ => rstart (i_span i) end.
Definition clear_of (ci : bool) (b : bytes) (ps : list lit) (s e : nat) : Prop := forall p i, In p ps -> ~ occurrence ci b p s e i.

Fixpoint regions (ci : bool) (b : bytes) (e : nat) (ls : list (line (lit_lang ci))) (nots : list lit) (pos : nat) (out : list minfo) : Prop :=
  match ls with
  | [] => clear_of ci b nots pos (first_or e out)
  | l :: r =>
      if is_not l then regions ci b e r (nots ++ [l_pat l]) pos out
      else clear_of ci b nots pos (first_or e out) /\
           regions ci b e r [] (last_end pos (firstn (width_of l) out)) (skipn (width_of l) out)
  end.

Lemma skipn_skipn_add {A} x y : forall l : list A, skipn x (skipn y l) = skipn (y + x) l.
Proof. induction y as [|y IH]; intros [|a l]; simpl; auto. destruct x; reflexivity. Qed.
Lemma firstn_add {A} x y : forall l : list A, firstn (x + y) l = firstn x l ++ firstn y (skipn x l).
Proof. induction x as [|x IH]; intros [|a l]; simpl; auto; [destruct y; reflexivity|]. now rewrite IH. Qed.
Lemma is_not_kind {L} (l : line L) : is_not l = true <-> l_kind l = KNot.
Proof. unfold is_not. destruct (l_kind l); split; congruence. Qed.

Lemma regions_all ci b e ls : forall nots pos out,
  regions ci b e ls nots pos out <->
  clear_of ci b nots pos (first_or e out) /\
  forall pre p post, ls = pre ++ mkLine KNot p :: post ->
    clear_of ci b [p] (last_end pos (firstn (width pre) out)) (first_or e (skipn (width pre) out)).
Proof.
  induction ls as [|[k q] ls IH]; intros nots pos out; cbn [regions].
  - split; [|tauto]. intros H. split; auto. intros [|? ?] p post E; discriminate.
  - destruct (is_not (mkLine k q)) eqn:NK.
    + apply is_not_kind in NK. simpl in NK. subst k. rewrite IH. cbn [l_pat]. split.
      * intros [A B]. split; [intros p i P; apply A; apply in_or_app; auto|].
        intros [|x pre] p post E.
        -- injection E as -> _. simpl. intros p' i [<-|[]]. apply A. apply in_or_app; simpl; auto.
        -- injection E as <- E. exact (B pre p post E).
      * intros [A B]. split.
        -- intros p i P. apply in_app_or in P as [P|[<-|[]]]; [apply A; auto|]. apply (B [] q ls eq_refl). simpl; auto.
        -- intros pre p post E. apply (B (mkLine KNot q :: pre) p post). now rewrite E.
    + rewrite IH. split.
      * intros (A & _ & B). split; auto. intros [|x pre] p post E.
        -- injection E as E0 _ _. subst k. discriminate.
        -- injection E as <- E. specialize (B pre p post E). rewrite skipn_skipn_add in B. unfold width in *. cbn [map list_sum fold_right].
           change (fold_right Nat.add 0 (map width_of pre)) with (list_sum (map width_of pre)).
           rewrite firstn_add, last_end_app. exact B.
      * intros (A & B). split; auto. split; [intros p i []|]. intros pre p post E.
        specialize (B (mkLine k q :: pre) p post). rewrite E in B. specialize (B eq_refl). rewrite skipn_skipn_add. unfold width in *. 
        cbn [map list_sum fold_right] in B.
        change (fold_right Nat.add 0 (map width_of pre)) with (list_sum (map width_of pre)) in B.
        rewrite firstn_add, last_end_app in B. exact B.
Qed.

Lemma fires_width {L} b E k p pos en is en' : fires (L:=L) b E k p pos en is en' -> length is = width_of (mkLine k p) /\ is <> [].
Proof.
  intros H. induction H as [| | | | | |p n pos en i en1 is en2 F H [IH _]]; try (split; [reflexivity|discriminate]).
  unfold width_of in *. cbn [l_kind length] in *. split; [congruence|discriminate].
Qed.
Lemma clear_absent ci b ps s e en : s <= e -> absent (L:=lit_lang ci) b ps s e en <-> clear_of ci b ps s e.
Proof. apply absent_lit. Qed.

Lemma accepts_regions ci b E : block_end_ok b E -> forall (ls : list (line (lit_lang ci))), (forall l, In l ls -> l_kind l <> KDag) ->
  forall nots pos out, pos <= E ->
  accepts (L:=lit_lang ci) b E ls nots false pos tt out tt <->
  accepts (L:=lit_lang ci) b E (positives ls) [] false pos tt out tt /\ regions ci b E ls nots pos out.
Proof.
  intros BE. induction ls as [|[k q] ls IH]; intros ND nots pos out P.
  - cbn [positives filter regions]. split.
    + intros H. inversion H; subst; [|destruct ds; [congruence|discriminate]].
      split; [constructor; left; reflexivity|]. apply clear_absent in H0; auto.
    + intros [H R]. inversion H; subst; [|destruct ds; [congruence|discriminate]]. constructor. apply clear_absent; auto.
  - assert (ND' : forall l, In l ls -> l_kind l <> KDag) by (intros; apply ND; simpl; auto). specialize (IH ND').
    cbn [regions]. unfold positives. cbn [filter]. fold (positives ls).
    destruct (is_not (mkLine k q)) eqn:NK; cbn [negb].
    + apply is_not_kind in NK. simpl in NK. subst k. cbn [l_pat]. rewrite <- IH by auto. split.
      * intros H. inversion H; subst; auto.
        -- match goal with F : fires _ _ _ _ _ _ _ _ |- _ => inversion F end.
        -- destruct ds; [congruence|discriminate].
      * intros H. constructor. auto.
    + assert (K1 : k <> KNot) by (intros ->; discriminate).
      assert (K2 : k <> KDag) by (exact (ND (mkLine k q) (or_introl eq_refl))).
      assert (BD : forall is, fires (L:=lit_lang ci) b E k q pos tt is tt -> pos <= first_start is <= last_end pos is /\ last_end pos is <= E).
      { intros is F. assert (K : k <> KCount 0) by (intros ->; inversion F).
        apply (fires_iff (lit_lang_ok ci) b E BE) in F as (rs & KR & RR); auto.
        apply (rules_run_in (lit_lang_ok ci) b E BE) in RR as (O & NE & F1 & F2); [|eapply nonempty_rules; eauto|auto]. lia. }
      split.
      * intros H. inversion H; subst; try congruence; [|destruct ds; [congruence|injection H0; intros; congruence]].
        match goal with F : fires _ _ _ _ _ _ _ ?x, A : absent _ _ _ _ _, R : accepts _ _ ls _ _ _ _ _ _ |- _ =>
          destruct x; pose proof (BD _ F) as [B1 B2]; destruct (fires_width _ _ _ _ _ _ _ _ F) as [W NE];
          apply IH in R as [R1 R2]; auto; apply clear_absent in A; [|lia]; rename F into FF; rename A into AA end.
        split.
        -- econstructor; eauto. left. reflexivity.
        -- split.
           ++ destruct is as [|i0 is]; [congruence|]. exact AA.
           ++ rewrite <- W. rewrite firstn_app, skipn_app, Nat.sub_diag, firstn_all, skipn_all. simpl. now rewrite app_nil_r.
      * intros (H & A & R). inversion H; subst; try congruence; [|destruct ds; [congruence|injection H0; intros; congruence]].
        match goal with F : fires _ _ _ _ _ _ _ ?x, R0 : accepts _ _ (positives ls) _ _ _ _ _ _ |- _ =>
          destruct x; pose proof (BD _ F) as [B1 B2]; destruct (fires_width _ _ _ _ _ _ _ _ F) as [W NE]; rename F into FF; rename R0 into RR end.
        econstructor; eauto.
        -- apply clear_absent; [lia|]. destruct is as [|i0 is]; [congruence|]. exact A.
        -- apply IH; auto. split; auto.
           rewrite <- W in R. rewrite firstn_app, skipn_app, Nat.sub_diag, firstn_all, skipn_all in R. simpl in R. rewrite app_nil_r in R. exact R.
Qed.

(** * implicit CHECK-NOT *)
Lemma accepts_width {L} b E (ls : list (line L)) nots strict pos en out en' : accepts b E ls nots strict pos en out en' ->
  (forall l, In l ls -> l_kind l <> KDag) -> length out = width ls.
Proof.
  intros H. induction H as [|p ls nots strict pos en out en' H IH
                 |k p ls nots strict pos en is en1 out en' F A G H IH
                 |ds ls nots strict pos en ms en1 stop out en' D1 D2 D3 D4 A touch TC H IH]; intros ND.
  - reflexivity.
  - rewrite IH by (intros; apply ND; simpl; auto). reflexivity.
  - rewrite app_length, IH by (intros; apply ND; simpl; auto). apply fires_width in F as [W _]. rewrite W. reflexivity.
  - exfalso. destruct ds as [|d ds]; [congruence|]. apply (ND (mkLine KDag d)); simpl; auto.
Qed.

Definition after_each {L} (q : pat L) (ls : list (line L)) : list (line L) :=
  flat_map (fun l => l :: match l_kind l with KNot => [] | _ => [mkLine KNot q] end) ls.
Fixpoint gaps (ci : bool) (b : bytes) (e : nat) (q : lit) (pos : nat) (out : list minfo) : Prop :=
  clear_of ci b [q] pos (first_or e out) /\
  match out with [] => True | i :: r => gaps ci b e q (rend (i_span i)) r end.

Lemma regions_nots ci b e ls nots pos out : regions ci b e ls nots pos out <->
  clear_of ci b nots pos (first_or e out) /\ regions ci b e ls [] pos out.
Proof. rewrite !regions_all. split; [intros [A B]; splits; auto; intros p i []|intros (A & _ & B); auto]. Qed.

Lemma regions_implicit ci b e q (ls : list (line (lit_lang ci))) : (forall l, In l ls -> width_of l = if is_not l then 0 else 1) ->
  forall nots pos out, In q nots -> length out = width ls ->
  regions ci b e (after_each (L:=lit_lang ci) q ls) nots pos out <-> regions ci b e ls nots pos out /\ gaps ci b e q pos out.
Proof.
  induction ls as [|l ls IH]; intros W nots pos out QN LN.
  - destruct out; [|discriminate]. simpl. split; [|tauto]. intros H. splits; auto. intros p i [<-|[]]. apply H. exact QN.
  - assert (W' : forall l, In l ls -> width_of l = if is_not l then 0 else 1) by (intros; apply W; simpl; auto). specialize (IH W').
    pose proof (W l (or_introl eq_refl)) as WL. change (width (l :: ls)) with (width_of l + width ls) in LN. rewrite WL in LN.
    unfold after_each. cbn [flat_map app]. fold (after_each (L:=lit_lang ci) q ls). destruct l as [k p].
    destruct (is_not (mkLine k p)) eqn:N.
    + pose proof N as NK. apply is_not_kind in NK. simpl in NK. subst k. cbn [l_kind app regions]. rewrite N. cbn [l_pat].
      apply IH; auto. apply in_or_app; auto.
    + assert (NK : k <> KNot) by (intros ->; discriminate).
      replace (match l_kind (mkLine (L:=lit_lang ci) k p) with KNot => [] | _ => [mkLine (L:=lit_lang ci) KNot q] end) with [mkLine (L:=lit_lang ci) KNot q]
        by (destruct k; auto; congruence).
      destruct out as [|i out]; [simpl in LN; lia|]. cbn [app regions]. rewrite N, WL. cbn [firstn skipn last_end is_not l_kind app l_pat].
      rewrite IH; [|simpl; auto|simpl in LN; lia]. cbn [gaps].
      rewrite (regions_nots ci b e ls [q]).
      split.
      * intros (A & (B & R) & G). splits; auto. intros p' j [<-|[]]. apply A. exact QN.
      * intros ((A & R) & _ & G). splits; auto. destruct out; apply G.
Qed.
Lemma gaps_all ci b e q out : forall pos, gaps ci b e q pos out <->
  forall k i, k <= length out -> ~ occurrence ci b q (last_end pos (firstn k out)) (first_or e (skipn k out)) i.
Proof.
  induction out as [|x out IH]; intros pos; cbn [gaps].
  - split.
    + intros [A _] [|k] i K; [|simpl in K; lia]. apply A. simpl; auto.
    + intros H. split; auto. intros p i [<-|[]]. apply (H 0 i). simpl; lia.
  - rewrite IH. split.
    + intros [A B] [|k] i K; [apply A; simpl; auto|]. simpl. apply B. simpl in K. lia.
    + intros H. split; [intros p i [<-|[]]; apply (H 0 i); lia|]. intros k i K. apply (H (S k) i). simpl. lia.
Qed.
Lemma positives_after_each {L} q (ls : list (line L)) : positives (after_each q ls) = positives ls.
Proof.
  induction ls as [|[k p] ls IH]; auto. unfold after_each. cbn [flat_map app]. fold (after_each q ls).
  unfold positives in *. destruct k; simpl; rewrite IH; reflexivity.
Qed.
