(** C91, C92: what a failed check tells about the input. *)
From Coq Require Import String Sorted Permutation.
From Verif Require SimAt_Proofs Sim_Proofs.
From Verif Require Import Base Text_Model Text_Spec Cursor_Model Source_Model Source_Spec Source_Proofs Source_Props Check_Model Program_Model Lit_Model Dump_Model Dump_Spec.
From Verif Require Report_Props.
Notation length := List.length.
Open Scope string_scope. Open Scope list_scope. Open Scope nat_scope.
Ltac splits := repeat match goal with |- _ /\ _ => split end.

(** ** Lines *)
Lemma line_at_computed id b x : utf8_like b -> line_at (mkFile id b) x = if (x <=? length b) && is_boundary b x then Val (length (nls (firstn x b)) + 1) else Panic.
Proof. intros U. unfold line_at, content. cbn [f_text]. rewrite location_computed by exact U. destruct (_ && _)%bool; reflexivity. Qed.
Lemma on_line_count b x l : x <= length b -> (on_line b x l <-> l = length (nls (firstn x b)) + 1).
Proof.
  intros X. unfold on_line. split.
  - intros (n & H & ->). apply nb_spec in H as [_ ->]. reflexivity.
  - intros ->. eexists. split; [|reflexivity]. now apply nb_spec.
Qed.
Lemma boundary_inside b x : x < length b -> (is_boundary b x = true <-> ~ inside_char b x).
Proof.
  intros X. unfold is_boundary, inside_char, byte_at, continues. destruct (Nat.eqb_spec x (length b)) as [->|_]; [lia|]. cbn [orb].
  destruct (nth_error b x) as [c|] eqn:E; [|apply nth_error_None in E; lia]. split.
  - intros H (c' & E' & R). injection E' as ->. apply negb_true_iff, andb_false_iff in H as [H|H]; [apply N.leb_gt in H|apply N.ltb_ge in H]; lia.
  - intros H. apply negb_true_iff, andb_false_iff. destruct (N.leb_spec 128 c) as [L|L]; [|auto]. right. apply N.ltb_ge. destruct (N.lt_ge_cases c 192); [|assumption]. destruct H. eauto.
Qed.
Lemma inside_dec b x : inside_char b x \/ ~ inside_char b x.
Proof.
  unfold inside_char, byte_at. destruct (nth_error b x) as [c|] eqn:E.
  - destruct (N.le_gt_cases 128 c), (N.lt_ge_cases c 192); [left; eauto|right|right|right]; intros (c' & Q & R); injection Q as ->; lia.
  - right. intros (c' & Q & R). discriminate.
Qed.
(** ** The region *)
Definition from (b : bytes) (r : Text_Model.range) : nat := Nat.min (rstart r) (length b).
Definition upto (b : bytes) (r : Text_Model.range) : nat := Nat.min (Nat.max (rend r) (from b r)) (length b).
Lemma bytes_here b r : from b r <> upto b r -> bytes_in b r (from b r) (upto b r).
Proof. unfold bytes_in, upto, from. intros H. split; [lia|]. intros x. lia. Qed.
Lemma no_bytes_here b r : from b r = upto b r -> no_bytes_in b r.
Proof. unfold no_bytes_in, upto, from. intros H x. lia. Qed.
Lemma bytes_are b r s e : bytes_in b r s e -> s = from b r /\ e = upto b r /\ s < e <= length b.
Proof.
  intros (L & H). assert (A := proj1 (H s) ltac:(lia)). assert (B := proj1 (H (e - 1)) ltac:(lia)).
  assert (F : from b r = rstart r) by (unfold from; lia). assert (S1 := proj2 (H (rstart r)) ltac:(lia)).
  assert (U : upto b r = Nat.min (rend r) (length b)) by (unfold upto, from; lia).
  assert (E1 := proj2 (H (Nat.min (rend r) (length b) - 1)) ltac:(lia)). lia.
Qed.
Lemma not_both b r s e : bytes_in b r s e -> ~ no_bytes_in b r.
Proof. intros (L & H) E. apply (E s). apply H. lia. Qed.
(** ** Texts with numbers *)
Lemma numbers_nil : numbers [] [].
Proof. exists []. split; [constructor|reflexivity]. Qed.
Lemma numbers_str s w t : numbers w t -> numbers (inl s :: w) (s ++ t).
Proof. intros (ts & F & ->). exists (s :: ts). split; [now constructor|reflexivity]. Qed.
Lemma numbers_num n w t : numbers w t -> numbers (inr n :: w) (Report_Model.number_text n ++ t).
Proof. intros (ts & F & ->). exists (Report_Model.number_text n :: ts). split; [constructor; [apply Report_Props.decimal_text|assumption]|reflexivity]. Qed.
Lemma numbers_last s : numbers [inl s] s.
Proof. rewrite <- (app_nil_r s) at 2. apply numbers_str, numbers_nil. Qed.
Lemma numbers_lastn n : numbers [inr n] (Report_Model.number_text n).
Proof. rewrite <- (app_nil_r (Report_Model.number_text n)). apply numbers_num, numbers_nil. Qed.
Ltac nums := repeat (first [apply numbers_last | apply numbers_lastn | apply numbers_str | apply numbers_num]).
Lemma decimal_fun n t : decimal n t -> forall t', decimal n t' -> t = t'.
Proof.
  induction 1 as [d D|n t d P D H IH]; intros t' H'; inversion H' as [d' D'|n' t'' d' P' D' H'']; subst; auto; try lia.
  assert (n' = n) by lia. assert (d' = d) by lia. subst. f_equal. now apply IH.
Qed.
Lemma numbers_fun w : forall t t', numbers w t -> numbers w t' -> t = t'.
Proof.
  intros t t' (ts & F & ->) (ts' & F' & ->). f_equal. revert ts' F'. induction F as [|x y w ts R F IH]; intros ts' F'; inversion F' as [|x' y' w' ts'' R' F'']; subst; auto. f_equal; auto.
  destruct x; [congruence|]. eapply decimal_fun; eassumption.
Qed.

(** ** C91: what is told of a search *)
Lemma count_mono b x y : x <= y <= length b -> length (nls (firstn x b)) <= length (nls (firstn y b)).
Proof. intros H. apply (nb_mono b x y); [apply nb_spec; split; [lia|reflexivity]|apply nb_spec; split; [lia|reflexivity]|lia]. Qed.
(** It is what the specification says. *)
Theorem region_told id b r full : utf8_like b -> plain_ends b r ->
  exists l, describe r (mkFile id b) full = Val l /\ tells id b r full l.
Proof.
  intros U P. unfold describe. cbn [f_id f_text]. fold (from b r). fold (upto b r). destruct (Nat.eqb_spec (from b r) (upto b r)) as [E|E].
  - eexists. split; [reflexivity|]. pose proof (no_bytes_here b r E) as NB. destruct (Nat.leb_spec (length b) (from b r)) as [L|L]; unfold from in L; [apply t_end|apply t_empty]; auto; lia.
  - pose proof (bytes_here b r E) as BI. destruct (P _ _ BI) as [P1 P2]. destruct (bytes_are b r _ _ BI) as (_ & _ & R). set (s := from b r) in *. set (e := upto b r) in *.
    rewrite !line_at_computed by exact U. rewrite (proj2 (boundary_inside b s ltac:(lia)) P1), (proj2 (boundary_inside b (e - 1) ltac:(lia)) P2).
    rewrite (proj2 (Nat.leb_le s (length b))), (proj2 (Nat.leb_le (e - 1) (length b))) by lia. cbn [andb bind].
    set (l := length (nls (firstn s b)) + 1). set (k := length (nls (firstn (e - 1) b)) + 1). assert (LK : l <= k) by (unfold l, k; pose proof (count_mono b s (e - 1)); lia).
    assert (OS : on_line b s l) by (apply on_line_count; [lia|reflexivity]). assert (OE : on_line b (e - 1) k) by (apply on_line_count; [lia|reflexivity]).
    unfold MAX_INLINE_SEARCHED_LINES. destruct (full || (k - l + 1 <=? 10))%bool eqn:F.
    + eexists. split; [reflexivity|]. destruct (Nat.eqb_spec (k - l + 1) 1) as [Q|Q].
      * assert (KL : k = l) by lia. rewrite KL in OE. apply (t_line id b r full s e l); [exact BI|exact OS|exact OE|nums].
      * apply (t_lines id b r full s e l k); [exact BI|exact OS|exact OE|lia| |nums]. destruct full; [auto|right]. cbn in F. apply Nat.leb_le in F. lia.
    + apply orb_false_iff in F as [F1 F2]. apply Nat.leb_gt in F2. unfold content. cbn [f_text]. rewrite (line_index_spec (source_new b) (e - 1) (wf_new b U)). cbn [bind].
      change (s_text (source_new b)) with b. unfold line_start. replace (s_starts (source_new b)) with (0 :: nls b) by (symmetry; apply (wf_new b U)).
      assert (NX : newlines_before b (e - 1) (length (nls (firstn (e - 1) b)))) by (apply nb_spec; split; [lia|reflexivity]).
      destruct (nb_start _ _ _ NX) as (x & SX & NS & SLB & NTH). rewrite NTH. cbn [unwrap_or]. eexists. split; [reflexivity|]. unfold span_at.
      apply (t_long id b r full s e l k); [exact BI|exact OS|exact OE|exact F1|lia|exact SLB|exists (length (nls (firstn (e - 1) b))); split; [exact NS|reflexivity]|nums].
Qed.
Lemma begins_unique b x y n : newlines_before b x n -> newlines_before b y n -> begins_line b x -> begins_line b y -> x = y.
Proof.
  intros X Y BX BY. apply nth_start in X; [|exact BX]. apply nth_start in Y; [|exact BY].
  assert (ND : NoDup (0 :: nls b)). { pose proof (table_nls b) as [SS _]. clear -SS. induction SS as [|a l SS IH F]; constructor; auto. intros I. rewrite Forall_forall in F. apply F in I. lia. }
  (* the same index *)
  congruence.
Qed.
(** ... and the specification leaves no choice. *)
Theorem told_once id b r full l l' : tells id b r full l -> tells id b r full l' -> l = l'.
Proof.
  assert (LU : forall x l k, on_line b x l -> on_line b x k -> l = k).
  { intros x l0 k (n & H & ->) (m & H' & ->). f_equal. eapply nb_unique; eassumption. }
  intros T T'. destruct T as [N1 N2|N1 N2|s e a m B O1 O2 M|s e a k m B O1 O2 K F M|s e a k m x B O1 O2 F K BX OX M];
    destruct T' as [N1' N2'|N1' N2'|s' e' a' m' B' O1' O2' M'|s' e' a' k' m' B' O1' O2' K' F' M'|s' e' a' k' m' x' B' O1' O2' F' K' BX' OX' M'];
    try reflexivity; try lia; try (exfalso; eapply not_both; eassumption);
    destruct (bytes_are _ _ _ _ B) as (-> & -> & _); destruct (bytes_are _ _ _ _ B') as (-> & -> & _);
    pose proof (LU _ _ _ O1 O1'); pose proof (LU _ _ _ O2 O2'); subst; try lia.
  - now rewrite (numbers_fun _ _ _ M M').
  - now rewrite (numbers_fun _ _ _ M M').
  - rewrite (numbers_fun _ _ _ M M'). destruct OX as (n & OX & E1); destruct OX' as (n' & OX' & E2). assert (n' = n) by lia; subst n'. now rewrite (begins_unique b x x' n OX OX' BX BX').
Qed.
(** It cannot be told, and checking aborts, exactly if the searched bytes begin or end inside a character. *)
Theorem region_aborts id b r full : utf8_like b ->
  (describe r (mkFile id b) full = Panic <-> exists s e, bytes_in b r s e /\ (inside_char b s \/ inside_char b (e - 1))).
Proof.
  intros U. split.
  - intros H. destruct (Nat.eq_dec (from b r) (upto b r)) as [E|E].
    + unfold describe in H. cbn [f_id f_text] in H. fold (from b r) in H. fold (upto b r) in H. apply Nat.eqb_eq in E. rewrite E in H. discriminate.
    + pose proof (bytes_here b r E) as BI. exists (from b r), (upto b r). split; [exact BI|].
      destruct (inside_dec b (from b r)) as [I1|I1]; [auto|]. destruct (inside_dec b (upto b r - 1)) as [I2|I2]; [auto|]. exfalso.
      destruct (region_told id b r full U) as (l & D & _); [|congruence]. intros s e B. destruct (bytes_are _ _ _ _ B) as (-> & -> & _). auto.
  - intros (s & e & B & I). destruct (bytes_are _ _ _ _ B) as (-> & -> & R). unfold describe. cbn [f_id f_text]. fold (from b r). fold (upto b r).
    destruct (Nat.eqb_spec (from b r) (upto b r)) as [E|_]; [lia|]. rewrite !line_at_computed by exact U.
    destruct (is_boundary b (from b r)) eqn:B1; [|rewrite andb_false_r; reflexivity]. rewrite (proj2 (Nat.leb_le (from b r) (length b))) by lia. cbn [andb bind].
    apply boundary_inside in B1; [|lia]. destruct I as [I|I]; [contradiction|].
    destruct (is_boundary b (upto b r - 1)) eqn:B2; [|rewrite andb_false_r; reflexivity]. apply boundary_inside in B2; [contradiction|lia].
Qed.

(** ** C92: regions are shown once *)
Section FailureInd.
Context (P : failure -> Prop) (H1 : forall sp r n, P (NoMatch sp r n)) (H2 : forall sp c k, Forall P c -> P (GroupFailed sp c k))
  (H3 : forall c, Forall P c -> P (AllFailed c)) (H4 : forall t, P (Other t)).
Fixpoint failure_nested (e : failure) : P e :=
  match e with
  | NoMatch sp r n => H1 sp r n
  | GroupFailed sp c k => H2 sp c k ((fix go l : Forall P l := match l with [] => Forall_nil P | x :: t => Forall_cons x (failure_nested x) (go t) end) c)
  | AllFailed c => H3 c ((fix go l : Forall P l := match l with [] => Forall_nil P | x :: t => Forall_cons x (failure_nested x) (go t) end) c)
  | Other t => H4 t
  end.
End FailureInd.
Notation entry := (span * list searched * option str)%type.
Definition pass_one (x : entry) (seen : list (list span)) : entry * list (list span) :=
  let '(p, r, n) := x in
  match places_of r with [] => (x, seen) | _ => if existsb (spans_eqb (places_of r)) seen then ((p, [Note SAME], n), seen) else (x, seen ++ [places_of r]) end.
Fixpoint pass (l : list entry) (seen : list (list span)) : list entry * list (list span) :=
  match l with [] => ([], seen) | x :: r => (fst (pass_one x seen) :: fst (pass r (snd (pass_one x seen))), snd (pass r (snd (pass_one x seen)))) end.
Lemma pass_app l : forall k seen, pass (l ++ k) seen = (fst (pass l seen) ++ fst (pass k (snd (pass l seen))), snd (pass k (snd (pass l seen)))).
Proof. induction l as [|x l IH]; intros k seen; cbn [pass app fst snd]; [now destruct (pass k seen)|]. rewrite IH. reflexivity. Qed.
Lemma key_places r : key r = places_of r.
Proof. unfold key. induction r as [|[sp m t|t] r IH]; cbn; auto. now f_equal. Qed.
Definition same_pass (e : failure) : Prop := forall seen,
  shown (fst (visit_one e seen)) = fst (pass (shown e) seen) /\ snd (visit_one e seen) = snd (pass (shown e) seen) /\ outline (fst (visit_one e seen)) = outline e.
Lemma go_visit : forall (l : list failure) seen, (fix go l seen := match l with [] => ([], seen) | x :: r => let (x', s1) := visit_one x seen in let (r', s2) := go r s1 in (x' :: r', s2) end) l seen = Dump_Model.visit l seen.
Proof. induction l as [|x l IH]; intros seen; [reflexivity|]. cbn [Dump_Model.visit]. destruct (visit_one x seen) as [x' s1]. rewrite IH. reflexivity. Qed.
Lemma visit_pass l : Forall same_pass l -> forall seen,
  flat_map shown (fst (Dump_Model.visit l seen)) = fst (pass (flat_map shown l) seen) /\ snd (Dump_Model.visit l seen) = snd (pass (flat_map shown l) seen) /\ map outline (fst (Dump_Model.visit l seen)) = map outline l.
Proof.
  induction 1 as [|x l X F IH]; intros seen; [cbn; auto|]. cbn [Dump_Model.visit flat_map map]. destruct (X seen) as (A & B & C). destruct (visit_one x seen) as [x' s1]. cbn [fst snd] in A, B, C.
  destruct (IH s1) as (A2 & B2 & C2). destruct (Dump_Model.visit l s1) as [l' s2]. cbn [fst snd flat_map map] in *. rewrite pass_app. cbn [fst snd]. rewrite A, <- B, A2, B2, C, C2. auto.
Qed.
Lemma every_pass e : same_pass e.
Proof.
  induction e as [sp r n|sp c k F|c F|t] using failure_nested; intros seen.
  - cbn [visit_one shown pass pass_one fst snd]. rewrite key_places. destruct (places_of r) as [|q qs]; [auto|]. destruct (existsb _ seen); auto.
  - cbn [visit_one shown]. rewrite go_visit. destruct (visit_pass c F seen) as (A & B & C). destruct (Dump_Model.visit c seen) as [c' s']. cbn [fst snd shown outline] in *. now rewrite C.
  - cbn [visit_one shown]. rewrite go_visit. destruct (visit_pass c F seen) as (A & B & C). destruct (Dump_Model.visit c seen) as [c' s']. cbn [fst snd shown outline] in *. now rewrite C.
  - cbn. auto.
Qed.
Lemma span_eqb_eq a b : span_eqb a b = true <-> a = b.
Proof.
  unfold span_eqb. rewrite !andb_true_iff, !Nat.eqb_eq. destruct a, b; cbn. split; [intros [[-> ->] ->]; reflexivity|]. intros E. injection E as -> -> ->. auto.
Qed.
Lemma spans_eqb_eq a : forall b, spans_eqb a b = true <-> a = b.
Proof.
  induction a as [|x a IH]; intros [|y b]; cbn; split; intros H; try discriminate; auto.
  - apply andb_true_iff in H as [H1 H2]. apply span_eqb_eq in H1. apply IH in H2. congruence.
  - injection H as -> ->. apply andb_true_iff. split; [now apply span_eqb_eq|now apply IH].
Qed.
Lemma pass_length l : forall seen, length (fst (pass l seen)) = length l.
Proof. induction l as [|x l IH]; intros seen; cbn; auto. Qed.
(** what has been seen: earlier ones, or given at the start *)
Lemma pass_nth l : forall seen i p r n, nth_error l i = Some (p, r, n) ->
  let old := places_of r <> [] /\ (In (places_of r) seen \/ exists j p' r' n', j < i /\ nth_error l j = Some (p', r', n') /\ places_of r' = places_of r) in
  (old -> nth_error (fst (pass l seen)) i = Some (p, [Note SAME], n)) /\ (~ old -> nth_error (fst (pass l seen)) i = Some (p, r, n)).
Proof.
  induction l as [|[[p0 r0] n0] l IH]; intros seen i p r n H old; [destruct i; discriminate|]. destruct i as [|i].
  - cbn in H. injection H as -> -> ->. cbn [pass fst nth_error pass_one]. unfold old. clear old. destruct (places_of r) as [|q qs] eqn:E.
    + cbn [fst]. split; [intros [X _]; congruence|auto].
    + destruct (existsb (spans_eqb (q :: qs)) seen) eqn:X; cbn [fst].
      * split; [auto|]. intros Y. destruct Y. split; [discriminate|left]. apply existsb_exists in X as (k & I & X). apply spans_eqb_eq in X. now subst.
      * split; [|auto]. intros (_ & [I|(j & _ & _ & _ & J & _)]); [|lia]. assert (Y : existsb (spans_eqb (q :: qs)) seen = true) by (apply existsb_exists; exists (q :: qs); split; [exact I|now apply spans_eqb_eq]). congruence.
  - cbn [nth_error] in H. cbn [pass fst nth_error]. destruct (IH (snd (pass_one (p0, r0, n0) seen)) i p r n H) as [A B].
    assert (Q : old <-> places_of r <> [] /\ (In (places_of r) (snd (pass_one (p0, r0, n0) seen)) \/ exists j p' r' n', j < i /\ nth_error l j = Some (p', r', n') /\ places_of r' = places_of r)).
    { unfold old. cbn [pass_one]. assert (SP : places_of r <> [] -> (In (places_of r) (snd (match places_of r0 with [] => (p0, r0, n0, seen) | _ => if existsb (spans_eqb (places_of r0)) seen then ((p0, [Note SAME], n0), seen) else ((p0, r0, n0), seen ++ [places_of r0]) end)) <-> In (places_of r) seen \/ places_of r0 = places_of r)).
      { intros NE. destruct (places_of r0) as [|q qs] eqn:E; cbn [snd]; [split; [auto|intros [X|X]; [auto|congruence]]|]. destruct (existsb (spans_eqb (q :: qs)) seen) eqn:X; cbn [snd].
        - split; [auto|]. intros [Y|Y]; [auto|]. apply existsb_exists in X as (k & I & X). apply spans_eqb_eq in X. congruence.
        - rewrite in_app_iff. cbn [In]. tauto. }
      split; intros [NE Y]; (split; [exact NE|]).
      - destruct Y as [Y|(j & p' & r' & n' & J & E & PE)]; [left; apply (SP NE); auto|]. destruct j as [|j]; [|right; exists j, p', r', n'; splits; [lia|exact E|exact PE]].
        cbn in E. injection E as -> -> ->. left. apply (SP NE). auto.
      - destruct Y as [Y|(j & p' & r' & n' & J & E & PE)]; [|right; exists (S j), p', r', n'; splits; [lia|exact E|exact PE]].
        apply (SP NE) in Y as [Y|Y]; [auto|]. right. exists 0, p0, r0, n0. splits; [lia|reflexivity|exact Y]. }
    split; intros O; [apply A|apply B]; rewrite <- Q; exact O.
Qed.
(** In the order of the report, an error is shown without its regions exactly if an earlier one marked the same places; nothing
    else changes. *)
Theorem regions_once errors :
  shown_once (flat_map shown errors) (flat_map shown (dedup_searched_regions errors)) /\ map outline (dedup_searched_regions errors) = map outline errors.
Proof.
  unfold dedup_searched_regions. destruct (visit_pass errors) with (seen := @nil (list span)) as (A & _ & C); [apply Forall_forall; intros e _; apply every_pass|].
  split; [|exact C]. rewrite A. split; [now rewrite pass_length|]. intros i p r n H. destruct (pass_nth _ [] i p r n H) as [P1 P2]. change SAME with (of_string "searched the same region of the input as an earlier failure") in P1. split; intros O.
  - apply P1. destruct O as [NE O]. split; [exact NE|right; exact O].
  - apply P2. intros [NE [[]|X]]. apply O. split; [exact NE|exact X].
Qed.
(** Regions that are shown in full are told apart: the marks agree only if the same bytes were searched. *)
Theorem regions_told_apart id b r r' full l l' s e s' e' :
  tells id b r full l -> tells id b r' full l' -> bytes_in b r s e -> bytes_in b r' s' e' -> places_of l = places_of l' -> (full = true \/ length l = 1) -> s = s' /\ e = e'.
Proof.
  intros T T' B B' E F.
  assert (SE : forall r0 l0 s0 e0, tells id b r0 full l0 -> bytes_in b r0 s0 e0 -> (full = true \/ length l0 = 1) -> places_of l0 = [mkSpan id s0 e0]).
  { clear. intros r0 l0 s0 e0 T B F. destruct T as [N1 N2|N1 N2|s e a m B' O1 O2 M|s e a k m B' O1 O2 K F' M|s e a k m x B' O1 O2 F' K BX OX M]; try (exfalso; eapply not_both; eassumption);
      destruct (bytes_are _ _ _ _ B) as (-> & -> & _); destruct (bytes_are _ _ _ _ B') as (-> & -> & _); try reflexivity. cbn in F. destruct F; [congruence|lia]. }
  pose proof (SE _ _ _ _ T B F) as P1. assert (F' : full = true \/ length l' = 1).
  { destruct F as [F|F]; [auto|]. right. rewrite P1 in E. destruct T'; cbn in *; auto; discriminate. }
  pose proof (SE _ _ _ _ T' B' F') as P2. rewrite P1, P2 in E. injection E as -> ->. auto.
Qed.
(** Long regions are not: two searches that began together and ended on the same line count as one, whatever they searched. *)
Theorem same_region_refuted : exists b r r' l l' p p',
  ascii b /\ describe r (mkFile 1 b) false = Val l /\ describe r' (mkFile 1 b) false = Val l' /\
  bytes_in b r 0 12 /\ bytes_in b r' 0 13 /\
  dedup_searched_regions [NoMatch p l None; NoMatch p' l' None] =
    [NoMatch p l None; NoMatch p' [Note (of_string "searched the same region of the input as an earlier failure")] None].
Proof.
  exists (repeat LF 11 ++ [97; 98]%N), (mkRange 0 12), (mkRange 0 13). do 2 eexists. exists (mkSpan 0 0 0), (mkSpan 0 7 8). splits.
  - intros i x H. unfold byte_at in H. apply nth_error_In in H. apply in_app_iff in H as [H|H]; [apply repeat_spec in H; now subst|]. destruct H as [<-|[<-|[]]]; reflexivity.
  - vm_compute. reflexivity.
  - vm_compute. reflexivity.
  - split; [lia|]. intros x. cbn [rstart rend]. change (length (repeat LF 11 ++ [97; 98]%N)) with 13. lia.
  - split; [lia|]. intros x. cbn [rstart rend]. change (length (repeat LF 11 ++ [97; 98]%N)) with 13. lia.
  - vm_compute. reflexivity.
Qed.

(** ** C92: the dump of the input *)
Lemma total_lines b n : utf8_like b -> b <> [] -> is_boundary b (length b - 1) = true -> line_at (mkFile n b) (length b - 1) = Val (length (nls (firstn (length b - 1) b)) + 1).
Proof. intros U NE B. rewrite line_at_computed, B by exact U. rewrite (proj2 (Nat.leb_le _ _)) by lia. reflexivity. Qed.
Lemma last_byte b : b <> [] -> exists c, byte_at b (length b - 1) c.
Proof. intros NE. unfold byte_at. destruct (nth_error b (length b - 1)) as [c|] eqn:E; [eauto|]. apply nth_error_None in E. destruct b; [congruence|cbn in E; lia]. Qed.
Lemma labels_told checks matched : utf8_like (f_text checks) -> in_checks checks matched -> exists l, match_labels checks matched = Val l /\ labelled checks matched l.
Proof.
  intros U. destruct checks as [cid ct]. cbn [f_text f_id] in *. induction matched as [|i r IH]; intros C; [exists []; split; [reflexivity|constructor]|].
  destruct IH as (l & E & L); [intros j J; apply C; now right|]. cbn [match_labels]. unfold span_is_empty. destruct (Nat.eqb_spec (sp_end (m_span i)) (sp_start (m_span i))) as [Q|Q].
  - exists l. split; [exact E|]. now apply l_skip.
  - unfold line_of. cbn [f_id]. destruct (Nat.eqb_spec (sp_file (m_pattern i)) cid) as [F|F].
    + destruct (C i (or_introl eq_refl) F) as [C1 C2]. cbn [f_text] in C1, C2. rewrite line_at_computed by exact U. rewrite (proj2 (Nat.leb_le _ _) C1).
      assert (B : is_boundary ct (sp_start (m_pattern i)) = true).
      { destruct (Nat.eq_dec (sp_start (m_pattern i)) (length ct)) as [X|X]; [unfold is_boundary; apply Nat.eqb_eq in X; now rewrite X|]. apply boundary_inside; [lia|assumption]. }
      rewrite B. cbn [andb bind]. rewrite E. cbn [bind]. eexists. split; [reflexivity|]. eapply l_line; [congruence|exact F| |nums|exact L].
      apply on_line_count; [exact C1|reflexivity].
    + cbn [bind]. rewrite E. cbn [bind]. eexists. split; [reflexivity|]. apply l_implicit; [congruence|exact F|exact L].
Qed.
Theorem dump_told input checks matched failed : utf8_like (f_text input) -> utf8_like (f_text checks) -> in_checks checks matched ->
  ~ inside_char (f_text input) (length (f_text input) - 1) ->
  exists d, dump_new input checks matched failed = Val d /\ dumped input checks matched failed d.
Proof.
  intros U UC C I. unfold dump_new. destruct (labels_told checks matched UC C) as (l & EL & L).
  assert (T : exists n, (if length (f_text input) =? 0 then Val 0 else line_at input (length (f_text input) - 1)) = Val n /\ line_total (f_text input) n).
  { destruct input as [id b]. cbn [f_text] in *. destruct (Nat.eqb_spec (length b) 0) as [Z|Z].
    - exists 0. split; [reflexivity|]. left. split; [now destruct b|reflexivity].
    - assert (NE : b <> []) by (now destruct b). assert (B : is_boundary b (length b - 1) = true) by (apply boundary_inside; [lia|exact I]).
      eexists. split; [now apply total_lines|]. destruct (last_byte b NE) as (c & BC). right. exists c. split; [exact BC|].
      assert (NB : newlines_before b (length b - 1) (length (nls (firstn (length b - 1) b)))) by (apply nb_spec; split; [lia|reflexivity]).
      destruct (N.eq_dec c LF) as [->|NL].
      + exists (S (length (nls (firstn (length b - 1) b)))). split; [replace (length b) with (S (length b - 1)) at 1 by lia; now apply Nb_lf|left; split; [reflexivity|lia]].
      + exists (length (nls (firstn (length b - 1) b))). split; [replace (length b) with (S (length b - 1)) at 1 by lia; eapply Nb_other; eassumption|right; auto]. }
  destruct T as (n & EN & T). rewrite EN, EL. cbn [bind]. eexists. split; [reflexivity|]. exists n. do 2 eexists. cbn [d_summary d_labels]. splits; [exact T|nums|reflexivity| |exact L].
  destruct matched as [|i r]; [left; auto|right; split; [discriminate|nums]].
Qed.
(** The dump aborts the run if the input ends with a character of several bytes, whatever was checked. *)
Theorem dump_aborts input checks matched failed : utf8_like (f_text input) -> inside_char (f_text input) (length (f_text input) - 1) ->
  dump_new input checks matched failed = Panic.
Proof.
  intros U I. unfold dump_new. destruct input as [id b]. cbn [f_text f_id] in *. assert (L : 0 < length b). { destruct I as (c & B & _). apply byte_lt in B. lia. }
  destruct (Nat.eqb_spec (length b) 0) as [Z|_]; [lia|]. rewrite line_at_computed by exact U. destruct (is_boundary b (length b - 1)) eqn:B; [|rewrite andb_false_r; reflexivity].
  apply boundary_inside in B; [contradiction|lia].
Qed.
(** The matches are said to be annotated even if none of them is. *)
Theorem annotated_refuted : exists input checks i d,
  dump_new input checks [i] 1 = Val d /\ d_labels d = [(mkSpan (f_id input) 0 (length (f_text input)), of_string "1 check(s) matched, as annotated above")].
Proof. exists (mkFile 1 [97; LF; LF; 98]%N), (mkFile 0 [97]%N), (mkMatch (mkSpan 1 2 2) (mkSpan 0 0 1)). eexists. split; vm_compute; reflexivity. Qed.

(** ** C92: how a run ends *)
Lemma insert_perm i l : Permutation (i :: l) (insert_match i l).
Proof. induction l as [|j l IH]; cbn; [auto|]. destruct (_ <=? _); [auto|]. etransitivity; [apply perm_swap|now constructor]. Qed.
Lemma insert_sorted i l : StronglySorted (fun i j => sp_start (m_pattern i) <= sp_start (m_pattern j)) l -> StronglySorted (fun i j => sp_start (m_pattern i) <= sp_start (m_pattern j)) (insert_match i l).
Proof.
  induction 1 as [|j l H IH F]; cbn; [repeat constructor|]. destruct (Nat.leb_spec (sp_start (m_pattern i)) (sp_start (m_pattern j))) as [L|L].
  - constructor; [now constructor|]. constructor; [exact L|]. eapply Forall_impl; [|exact F]. intros a A. cbn in A. lia.
  - constructor; [exact IH|]. apply Permutation_Forall with (i :: l); [apply insert_perm|]. constructor; [lia|exact F].
Qed.
Lemma insert_stable k i l : filter (fun i => sp_start (m_pattern i) =? k) (insert_match i l) = filter (fun i => sp_start (m_pattern i) =? k) (i :: l).
Proof.
  induction l as [|j l IH]; [reflexivity|]. cbn [insert_match]. destruct (Nat.leb_spec (sp_start (m_pattern i)) (sp_start (m_pattern j))) as [L|L]; [reflexivity|].
  cbn [filter] in *. rewrite IH. destruct (Nat.eqb_spec (sp_start (m_pattern i)) k), (Nat.eqb_spec (sp_start (m_pattern j)) k); try reflexivity; lia.
Qed.
Lemma sorted_matches l : by_pattern l (sort_matches l).
Proof.
  unfold by_pattern, sort_matches. induction l as [|i l (P & S1 & K)]; cbn [fold_right]; [splits; auto; constructor|]. splits.
  - etransitivity; [apply perm_skip; exact P|apply insert_perm].
  - now apply insert_sorted.
  - intros k. rewrite insert_stable. cbn [filter]. now rewrite K.
Qed.
(** A run passes exactly if no check failed; it gives the matches in the order of their patterns.  Otherwise it gives the
    errors, each region once, and, unless --dump-input=never, the dump. *)
Theorem run_told allow dump input checks matches errors : utf8_like (f_text input) -> utf8_like (f_text checks) -> in_checks checks matches ->
  allow = true \/ f_text input <> [] -> (dump = false \/ ~ inside_char (f_text input) (length (f_text input) - 1)) ->
  (errors = [] /\ exists out, check_report allow dump input checks (Val (matches, errors)) = Val (inl out) /\ by_pattern matches out) \/
  (errors <> [] /\ exists f, check_report allow dump input checks (Val (matches, errors)) = Val (inr f) /\
     shown_once (flat_map shown errors) (flat_map shown (tf_errors f)) /\ map outline (tf_errors f) = map outline errors /\
     ((dump = false /\ tf_dump f = None) \/ (dump = true /\ exists d, tf_dump f = Some d /\ dumped input checks matches (length errors) d))).
Proof.
  intros U UC C A I. unfold check_report. assert (Q : (negb allow && (length (f_text input) =? 0))%bool = false) by (destruct A as [->|A]; [reflexivity|]; apply andb_false_iff; right; destruct (f_text input); [congruence|reflexivity]).
  rewrite Q. cbn [bind]. destruct errors as [|e errors].
  - left. split; [reflexivity|]. cbn [bind]. eexists. split; [reflexivity|apply sorted_matches].
  - right. split; [discriminate|]. destruct dump.
    + destruct I as [I|I]; [discriminate|]. destruct (dump_told input checks matches (length (e :: errors)) U UC C I) as (d & E & D). rewrite E. cbn [bind]. eexists. split; [reflexivity|]. cbn [tf_errors tf_dump].
      destruct (regions_once (e :: errors)) as [R1 R2]. splits; auto. right. split; [reflexivity|eauto].
    + cbn [bind]. eexists. split; [reflexivity|]. cbn [tf_errors tf_dump]. destruct (regions_once (e :: errors)) as [R1 R2]. splits; auto.
Qed.
(** A failed check on an input that ends with a character of several bytes aborts the run instead of being reported. *)
Theorem failure_refuted allow input checks matches e errors : utf8_like (f_text input) -> inside_char (f_text input) (length (f_text input) - 1) ->
  check_report allow true input checks (Val (matches, e :: errors)) = Panic.
Proof.
  intros U I. unfold check_report. assert (Q : (length (f_text input) =? 0) = false). { apply Nat.eqb_neq. destruct I as (c & B & _). apply byte_lt in B. lia. }
  rewrite Q, andb_false_r. cbn [bind]. rewrite dump_aborts by assumption. reflexivity.
Qed.

(** ** The engine and its reports *)
(** On an ASCII text, or with --dump-input=never, the reports change nothing. *)
Lemma tell_fine dump verbose b r : dump = false \/ ascii b -> tell dump verbose b r = Val tt.
Proof.
  intros [->|H]; [reflexivity|]. unfold tell, match_none. destruct dump; [|reflexivity]. destruct (ascii_facts b H) as (U & BD & _).
  destruct (region_told 1 b r verbose U) as (l & E & _); [|rewrite E; reflexivity]. intros s e B. destruct (bytes_are _ _ _ _ B) as (_ & _ & R).
  split; apply boundary_inside; try lia; apply BD; lia.
Qed.
Theorem reports_silent dump verbose (L : lang) b : dump = false \/ ascii b ->
  (forall p r e, pm (l := reporting dump verbose L) p b r e = pm (l := L) p b r e) /\
  (forall ps r e, nm (l := reporting dump verbose L) ps b r e = nm (l := L) ps b r e) /\
  (forall ds r e, dm (l := reporting dump verbose L) ds b r e = dm (l := L) ds b r e).
Proof.
  intros H. cbn [reporting pm nm dm]. splits; intros; [destruct (pm _ _ _ _)|destruct (nm _ _ _ _)|destruct (dm _ _ _ _)]; cbn [bind]; try reflexivity;
    unfold tell_all; destruct (existsb _ _); rewrite ?tell_fine by exact H; reflexivity.
Qed.
(** So a run with its reports ends as the run without them: a directive's verdict does not hang on the reports. *)
Definition retold dump verbose (L : lang) (l : Program_Model.line L) : Program_Model.line (reporting dump verbose L) := mkLine (L := reporting dump verbose L) (l_kind l) (l_pat l).
Theorem reports_change_nothing dump verbose (L : lang) allow imp lines b e : dump = false \/ ascii b ->
  filecheck (L := reporting dump verbose L) allow imp (map (retold dump verbose L) lines) b e = filecheck (L := L) allow imp lines b e.
Proof.
  intros H. destruct (reports_silent dump verbose L b H) as (P & Nn & D). set (L' := reporting dump verbose L) in *. unfold filecheck.
  set (Q := fun (_ : list (pat L)) => True).
  assert (C : Sim_Proofs.like (Forall2 (Sim_Proofs.section_like (L := L) (L' := L') eq eq eq eq)) (compile (L := L) imp lines) (compile (L := L') imp (map (retold dump verbose L) lines))).
  { apply (Sim_Proofs.compile_sim_implicit (L := L) (L' := L') eq eq eq eq (fun _ => eq) (fun _ _ _ _ E => E) (fun _ _ E => E) Q Q).
    - intros ps ps' _ _ F. induction F as [|x y l l' E F IH]; [reflexivity|]. rewrite IH. now destruct E.
    - intros ps ps' _ _ F. induction F as [|x y l l' E F IH]; [reflexivity|]. rewrite IH. now destruct E.
    - destruct imp as [p|]; [exact (Sim_Proofs.il_some (L := L) (L' := L') (fun _ => eq) p p eq_refl)|exact (Sim_Proofs.il_none (L := L) (L' := L') (fun _ => eq))].
    - induction lines as [|[k p] ls IH]; constructor; [exact (Sim_Proofs.ll (L := L) (L' := L') (fun _ => eq) k p p eq_refl)|exact IH].
    - intros bs _. apply Forall_forall. intros x _. split; intros ? ? ? _ _ _; exact I. }
  enough (G : forall x y, Sim_Proofs.like (Forall2 (Sim_Proofs.section_like (L := L) (L' := L') eq eq eq eq)) x y ->
    bind y (fun secs => check_input (L := L') allow secs b e) = bind x (fun secs => check_input (L := L) allow secs b e)) by exact (G _ _ C).
  clear C. intros x y C. destruct C as [s s' F| |]; [|reflexivity|reflexivity]. cbn [bind]. symmetry.
  apply (SimAt_Proofs.check_input_sim b (L := L) (L' := L') eq (fun _ _ E => f_equal enter E) eq eq eq eq); [..|exact F|reflexivity].
  - intros p p' <- b1 r e1 e2 [-> _] <-. rewrite (P p r e1). destruct (pm _ _ _ _) as [[m e']| |]; constructor. split; reflexivity.
  - intros p p' <- b1 r e1 e2 [-> _] <-. rewrite (P p r e1). destruct (pm _ _ _ _) as [[m e']| |]; constructor. split; reflexivity.
  - intros p p' <-. split; [reflexivity|]. intros b1 r e1 e2 [-> _] <-. rewrite (Nn p r e1). destruct (nm _ _ _ _) as [[m e']| |]; constructor. split; reflexivity.
  - intros p p' <- b1 r e1 e2 [-> _] <-. rewrite (D p r e1). destruct (dm _ _ _ _) as [[[m e'] o]| |]; constructor. splits; reflexivity.
Qed.
(** Otherwise a search that finds nothing aborts the run if what was searched ends with a character of several bytes. *)
Theorem search_aborts verbose (L : lang) p b r e m e' s t : utf8_like b -> pm (l := L) p b r e = Val (m, e') -> m_ty m = Failed ENone ->
  bytes_in b r s t -> inside_char b (t - 1) -> pm (l := reporting true verbose L) p b r e = Panic.
Proof.
  intros U E M B I. cbn [reporting pm]. rewrite E. cbn [bind fst]. unfold tell_all. cbn [existsb]. unfold not_found. rewrite M. cbn [orb]. unfold tell, match_none.
  rewrite (proj2 (region_aborts 1 b r verbose U)); [reflexivity|]. eauto.
Qed.
(** So a CHECK-NOT whose text does not occur, and which is to pass, aborts the run. *)
Theorem passing_not_refuted : let check := mkLine (L := lit_lang false) KNot (mkLit 120 [] 0) in let check' := mkLine (L := reporting true false (lit_lang false)) KNot (mkLit 120 [] 0) in
  let b := [195; 169]%N in
  utf8_like b /\ ~ In 120%N b /\
  (exists t, filecheck (L := lit_lang false) false None [check] b tt = Val t /\ t_errors t = []) /\
  filecheck (L := reporting true false (lit_lang false)) false None [check'] b tt = Panic.
Proof.
  cbv zeta. splits.
  - intros [|[|i]] x H C; unfold byte_at in H; cbn in H; [injection H as <-; discriminate|exists 0, 195%N; splits; [reflexivity|reflexivity|lia]|destruct i; discriminate].
  - intros [H|[H|[]]]; discriminate.
  - eexists. split; vm_compute; reflexivity.
  - vm_compute. reflexivity.
Qed.

(** A search of the second and third line of a text *)
Definition some_text : bytes := of_string "one" ++ [LF] ++ of_string "two" ++ [LF] ++ of_string "three" ++ [LF].
Lemma some_ascii : ascii some_text.
Proof. intros i x H. unfold byte_at in H. apply nth_error_In in H. cbn in H. repeat (destruct H as [<-|H]; [reflexivity|]). destruct H. Qed.
Example ex_region : utf8_like some_text /\ plain_ends some_text (mkRange 4 14) /\
  describe (mkRange 4 14) (mkFile 1 some_text) false =
    Val [Marker (mkSpan 1 4 14) (Some (of_string "searched this region of the input (lines 2-3)")) (of_string "no match anywhere in this region")].
Proof.
  destruct (ascii_facts _ some_ascii) as (U & BD & _). splits; [exact U| |vm_compute; reflexivity].
  intros s e B. destruct (bytes_are _ _ _ _ B) as (_ & _ & R). split; apply boundary_inside; try lia; apply BD; lia.
Qed.
(** A run with a match and two failed searches of the same lines *)
Example ex_run : exists f, check_report false true (mkFile 1 some_text) (mkFile 0 (of_string "CHECK: one")) (Val ([mkMatch (mkSpan 1 0 3) (mkSpan 0 7 10)],
    [NoMatch (mkSpan 0 20 21) [Marker (mkSpan 1 4 14) None (of_string "a")] None; NoMatch (mkSpan 0 30 31) [Marker (mkSpan 1 4 14) None (of_string "a")] None])) = Val (inr f) /\
  tf_errors f = [NoMatch (mkSpan 0 20 21) [Marker (mkSpan 1 4 14) None (of_string "a")] None; NoMatch (mkSpan 0 30 31) [Note SAME] None] /\
  tf_dump f = Some (mkDump (of_string "the input that was checked (3 line(s), 2 failed check(s))")
    [(mkSpan 1 0 14, of_string "1 check(s) matched, as annotated above"); (mkSpan 1 0 3, of_string "matched by the check on line 1")]).
Proof. eexists. splits; vm_compute; reflexivity. Qed.
(** An input that ends inside a character is what the aborts need: "é" without a newline. *)
Example ex_inside : inside_char [195; 169]%N (length [195; 169]%N - 1).
Proof. exists 169%N. split; [reflexivity|lia]. Qed.

Print Assumptions region_told.
Print Assumptions told_once.
Print Assumptions region_aborts.
Print Assumptions regions_once.
Print Assumptions regions_told_apart.
Print Assumptions same_region_refuted.
Print Assumptions dump_told.
Print Assumptions dump_aborts.
Print Assumptions annotated_refuted.
Print Assumptions run_told.
Print Assumptions failure_refuted.
Print Assumptions reports_silent.
Print Assumptions reports_change_nothing.
Print Assumptions search_aborts.
Print Assumptions passing_not_refuted.
