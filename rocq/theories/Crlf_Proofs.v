(** Literal searches in an input with Windows line ends. *)
From Verif Require Import Base Text_Model Text_Spec Text_Proofs Cursor_Model Cursor_Spec Cursor_Proofs
  Check_Model Program_Model Check_Spec Check_Proofs Program_Proofs Accept_Proofs File_Spec File_Proofs File_Props
  Compose_Proofs Lit_Model Lit_Spec Lit_Proofs Lit_Props Crlf_Spec.

Lemma crlf_app a c : crlf (a ++ c) = crlf a ++ crlf c.
Proof. apply flat_map_app. Qed.

Section Moved.
Variable b : bytes.
Notation phi := (moved b).
Lemma moved_0 : phi 0 = 0.
Proof. reflexivity. Qed.
Lemma moved_len : phi (length b) = length (crlf b).
Proof. unfold moved. now rewrite firstn_all. Qed.
Lemma moved_S i x : nth_error b i = Some x -> phi (S i) = phi i + (if N.eqb x LF then 2 else 1).
Proof.
  intros H. unfold moved. assert (E : firstn (S i) b = firstn i b ++ [x]).
  { clear -H. revert i H. induction b as [|y b' IH]; intros [|i] H; cbn in H; try discriminate.
    - injection H as ->. reflexivity.
    - cbn [firstn app]. f_equal. now apply IH. }
  rewrite E, crlf_app, app_length. cbn. destruct (N.eqb x LF); reflexivity.
Qed.
Lemma moved_step i : i < length b -> phi i < phi (S i).
Proof. intros H. destruct (nth_error b i) as [x|] eqn:E; [|apply nth_error_None in E; lia]. rewrite (moved_S i x E). destruct (N.eqb x LF); lia. Qed.
Lemma moved_lt i j : i < j -> j <= length b -> phi i < phi j.
Proof. intros H. induction H as [|j H IH]; intros J; [apply moved_step; lia|]. specialize (IH ltac:(lia)). pose proof (moved_step j). lia. Qed.
Lemma moved_le i j : i <= j -> j <= length b -> phi i <= phi j.
Proof. intros H J. destruct (Nat.eq_dec i j) as [->|]; auto. pose proof (moved_lt i j). lia. Qed.
Lemma moved_lt_iff i j : i <= length b -> j <= length b -> (phi i < phi j <-> i < j).
Proof. intros I J. split; [|intros; apply moved_lt; auto]. intros H. destruct (Nat.lt_ge_cases i j); auto. pose proof (moved_le j i). lia. Qed.
Lemma moved_compare i j : i <= length b -> j <= length b -> Nat.compare (phi i) (phi j) = Nat.compare i j.
Proof.
  intros I J. destruct (Nat.compare_spec i j) as [->|H|H].
  - apply Nat.compare_refl.
  - apply Nat.compare_lt_iff, moved_lt; auto.
  - apply Nat.compare_gt_iff, moved_lt; auto.
Qed.
Lemma moved_leb i j : i <= length b -> j <= length b -> (phi i <=? phi j) = (i <=? j).
Proof. intros I J. rewrite !Nat.leb_compare, moved_compare by auto. reflexivity. Qed.
Lemma moved_ltb i j : i <= length b -> j <= length b -> (phi i <? phi j) = (i <? j).
Proof. intros I J. rewrite !Nat.ltb_compare, moved_compare by auto. reflexivity. Qed.
Lemma moved_bound i : i <= length b -> phi i <= length (crlf b).
Proof. intros H. rewrite <- moved_len. apply moved_le; auto. Qed.

Lemma skipn_moved i : skipn (phi i) (crlf b) = crlf (skipn i b).
Proof.
  unfold moved. rewrite <- (firstn_skipn i b) at 2. rewrite crlf_app. generalize (crlf (firstn i b)). intros l. rewrite skipn_app, skipn_all, Nat.sub_diag. reflexivity.
Qed.
End Moved.

Definition clean (p : lit) : Prop := one_line (lit_text p).
Lemma one_line_cons x t : one_line (x :: t) -> x <> LF /\ x <> CR /\ one_line t.
Proof. intros [A B]. repeat split; intros H; try (apply A; subst; now left); try (apply B; subst; now left); [apply A|apply B]; now right. Qed.
Lemma alike_one ci x y : alike ci x y -> x <> LF -> x <> CR -> y <> LF /\ y <> CR.
Proof. unfold LF, CR. intros [->|(_ & u & U & [[-> ->]|[-> ->]])] A B; split; lia. Qed.

Lemma starts_crlf ci t : one_line t -> forall s, starts ci t (crlf s) = starts ci t s.
Proof.
  induction t as [|x t IH]; intros C s; [reflexivity|].
  destruct (one_line_cons _ _ C) as (Cx1 & Cx2 & Ct).
  destruct s as [|y s]; [reflexivity|]. change (crlf (y :: s)) with ((if N.eqb y LF then [CR; LF] else [y]) ++ crlf s). destruct (N.eqb_spec y LF) as [->|NY].
  - cbn [app starts]. assert (A : forall z, z = LF \/ z = CR -> same ci x z = false).
    { intros z Z. destruct (same ci x z) eqn:E; auto. apply same_alike in E. destruct (alike_one _ _ _ E); try tauto. }
    rewrite (A CR), (A LF) by auto. reflexivity.
  - cbn [app starts]. now rewrite IH.
Qed.
Lemma starts_lf ci t s x : one_line t -> t <> [] -> x = LF \/ x = CR -> starts ci t (x :: s) = false.
Proof.
  intros C NE H. destruct t as [|y t]; [congruence|]. cbn [starts]. destruct (same ci y x) eqn:E; auto.
  destruct (one_line_cons _ _ C) as (Cx1 & Cx2 & Ct). apply same_alike in E. destruct (alike_one _ _ _ E); auto. destruct H; contradiction.
Qed.

Section Search.
Variable b : bytes.
Notation phi := (moved b).
Notation b' := (crlf b).
Lemma moved_run ci t i : one_line t -> starts ci t (skipn i b) = true -> phi (i + length t) = phi i + length t.
Proof.
  revert i. induction t as [|x t IH]; intros i C H; [cbn; now rewrite !Nat.add_0_r|].
  destruct (skipn i b) as [|y s] eqn:E; [discriminate|]. cbn [starts] in H. apply andb_true_iff in H as [H1 H2].
  assert (N : nth_error b i = Some y) by (rewrite <- (Nat.add_0_r i), <- nth_error_skipn, E; reflexivity).
  destruct (one_line_cons _ _ C) as (Cx1 & Cx2 & Ct). assert (NY : y <> LF) by (apply same_alike in H1; destruct (alike_one _ _ _ H1); auto).
  assert (E2 : skipn (S i) b = s).
  { replace (S i) with (i + 1) by lia. rewrite <- skipn_skipn_add, E. reflexivity. }
  cbn [length]. replace (i + S (length t)) with (S i + length t) by lia. rewrite IH; [|exact Ct|now rewrite E2].
  rewrite (moved_S b i y N). destruct (N.eqb_spec y LF); [contradiction|]. lia.
Qed.
Lemma starts_len ci t s : starts ci t s = true -> length t <= length s.
Proof. revert s. induction t as [|x t IH]; intros [|y s] H; cbn in *; try lia; try discriminate. apply andb_true_iff in H as [_ H]. apply IH in H. lia. Qed.
Lemma occurs_moved ci e i t : one_line t -> i <= length b -> e <= length b -> occurs ci b' (phi e) (phi i) t = occurs ci b e i t.
Proof.
  intros C I E. unfold occurs. rewrite skipn_moved, starts_crlf by auto. destruct (starts ci t (skipn i b)) eqn:S; [|now rewrite !andb_false_r].
  rewrite !andb_true_r. pose proof (starts_len _ _ _ S) as LL. rewrite skipn_length in LL.
  rewrite <- (moved_run ci) by auto. apply moved_leb; lia.
Qed.
Lemma occurs_between ci e i t : one_line t -> t <> [] -> byte_at b i LF -> occurs ci b' e (S (phi i)) t = false /\ occurs ci b' e (phi i) t = false.
Proof.
  intros C NE H. unfold occurs. assert (E : skipn (phi i) b' = CR :: LF :: crlf (skipn (S i) b)).
  { rewrite skipn_moved. unfold byte_at in H. destruct (skipn i b) as [|y s] eqn:SK.
    - exfalso. pose proof (nth_error_skipn b i 0) as Q. rewrite SK, Nat.add_0_r, H in Q. discriminate.
    - pose proof (nth_error_skipn b i 0) as Q. rewrite SK, Nat.add_0_r, H in Q. cbn in Q. injection Q as ->.
      replace (S i) with (i + 1) by lia. rewrite <- skipn_skipn_add, SK. reflexivity. }
  assert (E2 : skipn (S (phi i)) b' = LF :: crlf (skipn (S i) b)).
  { replace (S (phi i)) with (phi i + 1) by lia. rewrite <- skipn_skipn_add, E. reflexivity. }
  rewrite E, E2, !starts_lf by auto. now rewrite !andb_false_r.
Qed.

Lemma longest_moved ci e i ps : Forall clean ps -> i <= length b -> e <= length b -> forall k, longest ci b' (phi e) (phi i) ps k = longest ci b e i ps k.
Proof.
  intros C I E. induction C as [|p ps Cp C IH]; intros k; cbn [longest]; auto. rewrite occurs_moved by auto. now rewrite IH.
Qed.
Lemma longest_between ci e i ps : Forall clean ps -> byte_at b i LF -> forall k, longest ci b' e (S (phi i)) ps k = None /\ longest ci b' e (phi i) ps k = None.
Proof.
  intros C H. induction C as [|p ps Cp C IH]; intros k; cbn [longest]; auto. destruct (occurs_between ci e i (lit_text p) Cp ltac:(discriminate) H) as [-> ->]. apply IH.
Qed.
Lemma leftmost_set_moved ci ps e : Forall clean ps -> e <= length b -> forall n s, s + n = e ->
  leftmost_set ci b' ps (phi e) (phi e - phi s) (phi s) = option_map (fun x => (phi (fst (fst x)), snd (fst x), snd x)) (leftmost_set ci b ps e n s).
Proof.
  intros C E. induction n as [|n IH]; intros s H; cbn [leftmost_set].
  - assert (s = e) by lia. subst s. rewrite Nat.sub_diag. reflexivity.
  - destruct (nth_error b s) as [x|] eqn:X; [|apply nth_error_None in X; lia]. pose proof (moved_le b (S s) e ltac:(lia) E) as LE. pose proof (moved_S b s x X) as MS.
    specialize (IH (S s) ltac:(lia)). destruct (N.eqb_spec x LF) as [->|NX].
    + destruct (longest_between ci (phi e) s ps C X 0) as [L1 L2].
      replace (phi e - phi s) with (S (S (phi e - phi (S s)))) by lia. cbn [leftmost_set]. rewrite L2, L1. rewrite <- (longest_moved ci e s ps C ltac:(lia) E 0), L2.
      replace (S (S (phi s))) with (phi (S s)) by lia. exact IH.
    + replace (phi e - phi s) with (S (phi e - phi (S s))) by lia. cbn [leftmost_set]. rewrite longest_moved by (auto; lia).
      destruct (longest ci b e s ps 0) as [[k p]|]; [reflexivity|]. replace (S (phi s)) with (phi (S s)) by lia. exact IH.
Qed.
Lemma leftmost_moved ci t e : one_line t -> t <> [] -> e <= length b -> forall n s, s + n = e ->
  leftmost ci b' t (phi e) (phi e - phi s) (phi s) = option_map phi (leftmost ci b t e n s).
Proof.
  intros C NE E. induction n as [|n IH]; intros s H; cbn [leftmost].
  - assert (s = e) by lia. subst s. rewrite Nat.sub_diag. reflexivity.
  - destruct (nth_error b s) as [x|] eqn:X; [|apply nth_error_None in X; lia]. pose proof (moved_le b (S s) e ltac:(lia) E) as LE. pose proof (moved_S b s x X) as MS.
    specialize (IH (S s) ltac:(lia)). destruct (N.eqb_spec x LF) as [->|NX].
    + destruct (occurs_between ci (phi e) s t C NE X) as [L1 L2].
      replace (phi e - phi s) with (S (S (phi e - phi (S s)))) by lia. cbn [leftmost]. rewrite L2, L1. rewrite <- (occurs_moved ci e s t C ltac:(lia) E), L2.
      replace (S (S (phi s))) with (phi (S s)) by lia. exact IH.
    + replace (phi e - phi s) with (S (phi e - phi (S s))) by lia. cbn [leftmost]. rewrite occurs_moved by (auto; lia).
      destruct (occurs ci b e s t); [reflexivity|]. replace (S (phi s)) with (phi (S s)) by lia. exact IH.
Qed.

(** * results *)
Definition moved_res (m : mresult) : mresult := mkRes (m_ty m) (option_map (relocated b) (m_info m)).
Lemma stop_moved ci e s i p : clean p -> occurrence ci b p s e i -> e <= length b ->
  phi (i + length (lit_text p)) = phi i + length (lit_text p).
Proof.
  intros C (_ & H2 & H3) E. apply (moved_run ci); auto. apply starts_spec. intros k x X. destruct (H3 k x X) as (y & Y & A). exists y. split; auto. now rewrite nth_error_skipn.
Qed.
Lemma lit_match_moved ci p s e : clean p -> s <= e <= length b ->
  lit_match ci p b' (mkRange (phi s) (phi e)) = moved_res (lit_match ci p b (mkRange s e)).
Proof.
  intros C H. unfold lit_match. cbn [rstart rend]. rewrite (leftmost_moved ci (lit_text p) e C ltac:(discriminate) ltac:(lia) (e - s) s) by lia.
  pose proof (leftmost_spec ci b p e (e - s) s ltac:(lia)) as LS. destruct (leftmost ci b (lit_text p) e (e - s) s) as [k|]; [|reflexivity].
  cbn [option_map]. unfold moved_res, relocated. cbn [m_ty m_info option_map i_span i_id i_pspan rstart rend]. rewrite (stop_moved ci e s); auto; [apply LS|lia].
Qed.
Lemma dedup_clean ps : Forall clean ps -> Forall clean (dedup [] ps).
Proof. rewrite !Forall_forall. intros H p P. apply H. eapply dedup_incl; eauto. Qed.
Lemma lit_any_moved ci ps s e : Forall clean ps -> s <= e <= length b ->
  lit_any ci ps b' (mkRange (phi s) (phi e)) = moved_res (lit_any ci ps b (mkRange s e)).
Proof.
  intros C H. apply dedup_clean in C. unfold lit_any. cbn [rstart rend]. rewrite (leftmost_set_moved ci _ e C ltac:(lia) (e - s) s) by lia.
  pose proof (leftmost_set_spec ci b (dedup [] ps) e (e - s) s ltac:(lia)) as LS. destruct (leftmost_set ci b (dedup [] ps) e (e - s) s) as [[[i k] p]|]; [|reflexivity].
  cbn [option_map fst snd]. unfold moved_res, relocated. cbn [m_ty m_info option_map i_span i_id i_pspan rstart rend]. destruct LS as (N & O & _).
  rewrite (stop_moved ci e s); auto; [|lia]. apply nth_error_In in N. rewrite Forall_forall in C. auto.
Qed.

(** * CHECK-DAG *)
Definition inb (m : mresult) : Prop := forall i, m_info m = Some i -> rstart (i_span i) <= length b /\ rend (i_span i) <= length b.
Lemma before_moved a c : inb a -> inb c -> before (moved_res a) (moved_res c) = before a c.
Proof.
  intros A C. unfold before, moved_res. cbn [m_info]. destruct (m_info c) as [j|] eqn:J; destruct (m_info a) as [i|] eqn:I; cbn [option_map]; auto.
  destruct (A i I). destruct (C j J). unfold info_cmp, relocated. cbn [i_span i_pspan rstart rend]. rewrite !moved_compare by auto. reflexivity.
Qed.
Lemma push_moved ms m : Forall inb ms -> inb m -> ms_push (map moved_res ms) (moved_res m) = map moved_res (ms_push ms m).
Proof.
  intros F M. induction F as [|x ms X F IH]; cbn [map ms_push]; auto. rewrite before_moved by auto. destruct (before x m); cbn [map]; auto. now rewrite IH.
Qed.
Lemma push_inb ms m : Forall inb ms -> inb m -> Forall inb (ms_push ms m).
Proof. intros F M. induction F as [|x ms X F IH]; cbn [ms_push]; auto. destruct (before x m); auto. Qed.
Lemma same_id_moved k ms : existsb (same_id k) (map moved_res ms) = existsb (same_id k) ms.
Proof.
  induction ms as [|x ms IH]; cbn [map existsb]; auto. rewrite IH. f_equal. unfold same_id, moved_res. cbn [m_info]. destruct (m_info x); reflexivity.
Qed.
Lemma inside_moved s e ms : s <= length b -> e <= length b -> Forall inb ms -> existsb (inside (phi s) (phi e)) (map moved_res ms) = existsb (inside s e) ms.
Proof.
  intros S E F. induction F as [|x ms X F IH]; cbn [map existsb]; auto. rewrite IH. f_equal. unfold inside, moved_res. cbn [m_info]. destruct (m_info x) as [i|] eqn:I; auto.
  cbn [option_map]. destruct (X i I). unfold range_contains, relocated. cbn [i_span rstart rend]. rewrite !moved_leb, !moved_ltb by auto. reflexivity.
Qed.
Lemma inb_failed er : inb (failed er).
Proof. intros i. discriminate. Qed.
Lemma missing_moved n : forall k got acc, Forall inb acc -> missing n k (map moved_res got) (map moved_res acc) = map moved_res (missing n k got acc).
Proof.
  induction n as [|n IH]; intros k got acc F; cbn [missing]; auto. rewrite same_id_moved. destruct (existsb (same_id k) got); [now apply IH|].
  change (failed ENone) with (moved_res (failed ENone)) at 1. rewrite push_moved by auto using inb_failed. apply IH. apply push_inb; auto using inb_failed.
Qed.
Lemma push_len ms m : length (ms_push ms m) = S (length ms).
Proof. induction ms as [|x ms IH]; cbn [ms_push]; auto. destruct (before x m); cbn [length]; auto. Qed.
Definition moved_dag (x : res (matches * option nat)) : res (matches * option nat) :=
  match x with Val (ms, o) => Val (map moved_res ms, option_map phi o) | Err => Err | Panic => Panic end.
Lemma visit_moved ps e : Forall clean ps -> e <= length b -> forall fuel fuel' start got, start <= e -> e - start < fuel -> phi e - phi start < fuel' -> Forall inb got ->
  visit fuel' b' ps (phi e) (phi start) (map moved_res got) = moved_dag (visit fuel b ps e start got).
Proof.
  intros C E. induction fuel as [|fuel IH]; intros fuel' start got ST F1 F2 G; [lia|]. destruct fuel' as [|fuel']; [lia|]. cbn [visit].
  rewrite (leftmost_set_moved false ps e C E (e - start) start) by lia.
  pose proof (leftmost_set_spec false b ps e (e - start) start ltac:(lia)) as LS. destruct (leftmost_set false b ps e (e - start) start) as [[[i k] p]|]; cbn [option_map fst snd].
  - destruct LS as (N & O & _). assert (Cp : clean p) by (apply nth_error_In in N; rewrite Forall_forall in C; auto).
    pose proof (stop_moved false e start i p Cp O E) as SM. destruct O as (O1 & O2 & _). cbv zeta. rewrite <- SM.
    assert (LP : 0 < length (lit_text p)) by (cbn; lia). set (stop := i + length (lit_text p)) in *.
    assert (P1 : phi start < phi stop) by (apply moved_lt; lia). assert (P2 : phi stop <= phi e) by (apply moved_le; lia).
    rewrite same_id_moved, inside_moved by (auto; lia). destruct (_ || _)%bool.
    + apply IH; auto; lia.
    + change (mkRes Good (Some (mkInfo (mkRange (phi i) (phi stop)) k (lit_span p)))) with (moved_res (mkRes Good (Some (mkInfo (mkRange i stop) k (lit_span p))))).
      assert (IB : inb (mkRes Good (Some (mkInfo (mkRange i stop) k (lit_span p))))) by (intros j [= <-]; cbn; lia).
      rewrite push_moved, map_length by auto. destruct (length ps =? _); [reflexivity|]. apply IH; auto using push_inb; lia.
  - cbn [moved_dag option_map]. rewrite map_length. destruct (length ps =? length got); [reflexivity|]. now rewrite missing_moved.
Qed.
Lemma lit_dag_moved ps s e : Forall clean ps -> s <= e <= length b -> lit_dag ps b' (mkRange (phi s) (phi e)) = moved_dag (lit_dag ps b (mkRange s e)).
Proof.
  intros C H. unfold lit_dag. cbn [rstart rend]. rewrite <- (visit_moved (dedup [] ps) e (dedup_clean _ C) ltac:(lia) (S (e - s)) (S (phi e - phi s)) s []); auto; lia.
Qed.
End Search.
