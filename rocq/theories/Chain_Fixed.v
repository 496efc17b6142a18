(** The search for a pattern with substitutions: patterns whose text is known, and searches that do not end. *)
From Coq Require Import String.
From Verif Require Import Base Text_Model Cursor_Model Check_Model Lit_Model Lit_Spec Env_Model Num_Model Num_Spec Num_Proofs Gram_Model Sum_Spec Parse_Model
  Regex_Model Regex_Spec Regex_Proofs Regex_Engine Regex_Frame Smart_Model Smart_Spec Smart_Static Smart_Parts Chain_Spec Chain_Proofs Chain_Search.
From Verif Require Lit_Proofs.
Open Scope list_scope.
Open Scope nat_scope.
Ltac splits := repeat match goal with |- _ /\ _ => split end.

Lemma text_at_app ci b t u i : text_at ci b (t ++ u) i <-> text_at ci b t i /\ text_at ci b u (i + length t).
Proof.
  unfold text_at. split.
  - intros H. split; intros k x Hk.
    + apply H. rewrite nth_error_app1; [exact Hk|]. apply nth_error_Some. congruence.
    + rewrite <- Nat.add_assoc. apply H. rewrite nth_error_app2 by lia. now replace (length t + k - length t) with k by lia.
  - intros [H1 H2] k x Hk. destruct (Nat.lt_ge_cases k (length t)) as [L|L].
    + rewrite nth_error_app1 in Hk by easy. auto.
    + rewrite nth_error_app2 in Hk by easy. destruct (H2 _ _ Hk) as (y & Hy & A). exists y. split; [|easy]. rewrite <- Hy. f_equal. lia.
Qed.
Lemma plain_ordinary t : (forall c, In c t -> ~ In c special) -> forallb ordinary t = true.
Proof.
  intros H. apply forallb_forall. intros c Hc. unfold ordinary. apply negb_true_iff, not_true_is_false. intros X. apply existsb_exists in X as (d & Hd & E). apply N.eqb_eq in E as <-. exact (H c Hc Hd).
Qed.
Lemma display_some n : display n <> [].
Proof.
  assert (G : forall f v, display (mkNum (Some f) v) <> []).
  { intros f v. destruct (display_digits f v) as (zs & ds & -> & _ & _ & N & _). intros Z. apply app_eq_nil in Z as [_ Z]. apply app_eq_nil in Z as [_ Z]. auto. }
  destruct n as [[f|] v]; [apply G|]. change (display (mkNum None v)) with (display (mkNum (Some default_format) v)). apply G.
Qed.

Section Fixed.
Context (ci strict : bool) (fuel : nat) (b : bytes) (line : Z) (e : nat) (Be : e <= length b).
Notation E := ascii_engine.
Notation part_at := (match_part E ci fuel b line).
(** a text without special characters is found where it stands, and only there *)
Lemma ordinary_found t i : forallb ordinary t = true -> i + length t <= e -> text_at ci b t i -> exists x, build ci t = Some x /\
  exists l, re_search x b (mkRange i e) true = Some (Some (mkRange i (i + length t)) :: l).
Proof.
  intros O L T. pose proof (ordinary_build ci t O) as B. eexists. split; [exact B|]. set (x := mkRx _ _ _) in *.
  assert (Lg : lang ci b e (x_re x) i (i + length t)) by (apply cat_reads; auto; apply reads_piece; auto; [lia|]; now apply pc_lit).
  destruct (re_search x b (mkRange i e) true) as [l|] eqn:Se.
  - apply (search_at ci b e) in Se as (j & g & -> & R & _); [|easy|exact (proj1 (build_proper _ _ _ B))|lia]. apply (proj1 (run_lang _ _ _)) in R. apply cat_reads in R; auto. apply reads_end in R; auto. subst j. eexists. reflexivity.
  - exfalso. pose proof (search_none _ _ _ _ Se i) as N. cbn [rstart rend] in N. revert Lg. apply nil_lang; [apply N; lia|lia].
Qed.
Lemma plain_found E0 v t i m : plain_value E0 v t -> 2 <= fuel -> i + length t <= e -> text_at ci b t i -> Smart_Model.x_env m = E0 ->
  t <> [] /\ part_at (OSub E (PVar v) None) (mkRange i e) true m = Val (Some (mkRange i (i + length t), m)).
Proof.
  intros P F L T Em. assert (G : t <> [] /\ forallb ordinary t = true /\ exists r, evaluate fuel line E0 None (PVar v) = Val r /\ match r with inl n => display n | inr s => s end = t).
  { destruct fuel as [|[|k]]; [lia..|]. destruct P as [v n t N V Ne S|v n z N V].
    - splits; auto; [now apply plain_ordinary|]. exists (inr t). split; [|reflexivity]. unfold evaluate. destruct N; cbn [eval_of evaluate_expr]; now rewrite V.
    - splits; [apply display_some|apply display_ordinary|]. exists (inl z). split; [|reflexivity]. unfold evaluate. destruct N; cbn [eval_of evaluate_expr]; now rewrite V. }
  destruct G as (Ne & O & r & Ev & Tx). split; [exact Ne|]. cbn [match_part]. rewrite Em, Ev. cbn [bind]. destruct (ordinary_found t i O L T) as (x & B & l & Se).
  replace (match r with inl n => display n | inr s => s end) with t. unfold regex_of. cbn [rx_build ascii_engine]. rewrite B. cbn [bind rx_search ascii_engine]. now rewrite Se.
Qed.
Lemma fixed_go E0 l u : fixed strict E0 l u -> 2 <= fuel -> forall p, p_lit p = true -> p_text p = [] \/ plain_literal strict (p_text p) ->
  exists ops, lower_parts E ci strict (segments p l) = Val ops /\
    forall i m, Smart_Model.x_env m = E0 -> i + length (p_text p ++ u) <= e -> text_at ci b (p_text p ++ u) i ->
      match_parts E ci fuel b line ops i e m = Val (inr (i + length (p_text p ++ u), m)).
Proof.
  intros H F. 
  assert (Pend : forall p, p_lit p = true -> p_text p = [] \/ plain_literal strict (p_text p) -> exists ops, lower_parts E ci strict (pending_part p) = Val ops /\
    forall rest i m, Smart_Model.x_env m = E0 -> i + length (p_text p) <= e -> text_at ci b (p_text p) i ->
      match_parts E ci fuel b line (ops ++ rest) i e m = match_parts E ci fuel b line rest (i + length (p_text p)) e m).
  { intros p Lp [Z|(Ne & Tb & A)].
    - exists []. unfold pending_part. rewrite Z. split; [reflexivity|]. intros rest i m _ _ _. cbn [app List.length]. now rewrite Nat.add_0_r.
    - exists [OLit E (p_text p)]. unfold pending_part. destruct (p_text p) as [|c0 s0] eqn:Pt; [easy|]. rewrite <- Pt in *. rewrite Lp. split.
      + cbn [lower_parts lower_part]. unfold literal_text. rewrite canonical_same by easy. unfold nonempty. rewrite Pt. reflexivity.
      + intros rest i m _ Le T. cbn [app match_parts match_part rstart rend]. destruct (Nat.leb_spec e i) as [X|X]; [rewrite Pt in Le; cbn in Le; lia|]. cbn [leftmost].
        replace (occurs ci b e i (p_text p)) with true by (symmetry; now apply Lit_Proofs.occurs_spec). reflexivity. }
  induction H as [|t l u (Ne & Tb & A) H IH|v t l u P H IH]; intros p Lp Pp.
  - destruct (Pend p Lp Pp) as (ops & L & G). exists ops. split; [exact L|]. intros i m Em Le T. rewrite app_nil_r in *. specialize (G [] i m Em Le T). rewrite app_nil_r in G. now rewrite G.
  - cbn [segments is_dynamic compact_one snd]. rewrite Lp. destruct (IH (mkPend (p_text p ++ t) (p_caps p) true)) as (ops & L & G); [easy| |].
    + cbn [p_text]. right. split; [|split].
      * intros Z. apply app_eq_nil in Z as [_ Z]. auto.
      * destruct strict; [now left|]. right. intros I. apply in_app_or in I as [I|I]; [destruct Pp as [Z|(_ & [|X] & _)]; [now rewrite Z in I|discriminate|auto]|destruct Tb; [discriminate|auto]].
      * intros c I. apply in_app_or in I as [I|I]; [destruct Pp as [Z|(_ & _ & X)]; [now rewrite Z in I|auto]|auto].
    + exists ops. split; [exact L|]. cbn [p_text] in G. intros i m Em Le T. rewrite !app_assoc in *. now apply G.
  - cbn [segments is_dynamic]. destruct (Pend p Lp Pp) as (o1 & L1 & G1). destruct (IH nothing_pending eq_refl (or_introl eq_refl)) as (o2 & L2 & G2). cbn [nothing_pending p_text app] in G2.
    exists (o1 ++ OSub E (PVar v) None :: o2). split.
    + assert (La : forall l1 l2 a c, lower_parts E ci strict l1 = Val a -> lower_parts E ci strict l2 = Val c -> lower_parts E ci strict (l1 ++ l2) = Val (a ++ c)).
      { clear. induction l1 as [|q l1 IH]; intros l2 a c A C; cbn [app lower_parts] in *; [now injection A as <-|]. destruct (lower_part E ci strict q) as [x| |]; try discriminate. cbn [bind] in *.
        destruct (lower_parts E ci strict l1) as [y| |]; try discriminate. cbn [bind] in A. injection A as <-. rewrite (IH _ _ _ eq_refl C). cbn [bind]. now rewrite app_assoc. }
      apply La; [exact L1|]. change (OSub E (PVar v) None :: o2) with ([OSub E (PVar v) None] ++ o2). apply La; [reflexivity|exact L2].
    + intros i m Em Le T. rewrite !app_length in Le. apply text_at_app in T as [T1 T2]. apply text_at_app in T2 as [T2 T3].
      rewrite G1 by (auto; lia). destruct (plain_found E0 v t (i + length (p_text p)) m P F ltac:(lia) T2 Em) as [Ne Pa].
      cbn [match_parts]. destruct (Nat.leb_spec e (i + length (p_text p))) as [X|X]; [destruct t; [easy|cbn in Le; lia]|]. rewrite Pa. cbn [bind rend]. rewrite G2 by (auto; lia). rewrite !app_length. now rewrite !Nat.add_assoc.
Qed.

(** * Searches that do not end *)
Lemma rounds_more n : forall o rest s a env0 r, search_rounds E ci fuel b line n o rest s e a env0 = Some r -> forall k, n <= k -> search_rounds E ci fuel b line k o rest s e a env0 = Some r.
Proof.
  induction n as [|n IH]; intros o rest s a env0 r H k L; [discriminate|]. destruct k as [|k]; [lia|]. cbn [search_rounds] in *.
  destruct (part_at o (mkRange s e) a (mkMach [] [] env0)) as [[[r1 m1]|]| |]; auto. destruct (match_parts E ci fuel b line rest (rend r1) e m1) as [[stop|[stop m2]]| |]; auto. destruct a; auto. apply IH; auto. lia.
Qed.
(** a search that goes on beyond the end of the buffer goes on for ever *)
Lemma stuck_end o rest env0 n : search_rounds E ci fuel b line (S n) o rest (length b) e false env0 = None -> forall k, search_rounds E ci fuel b line k o rest (length b) e false env0 = None.
Proof.
  intros H. cbn [search_rounds] in H.
  destruct (part_at o (mkRange (length b) e) false (mkMach [] [] env0)) as [[[r1 m1]|]| |] eqn:P; try discriminate. destruct (match_parts E ci fuel b line rest (rend r1) e m1) as [[stop|[stop m2]]| |] eqn:M; try discriminate.
  induction k as [|k IH]; [reflexivity|]. cbn [search_rounds]. rewrite P, M. replace (Nat.min (Nat.max stop (S (length b))) (length b)) with (length b) by lia. exact IH.
Qed.
(** more rounds do not help *)
Lemma rounds_enough o rest n : forall s env0, s <= length b -> length b - s <= n -> search_rounds E ci fuel b line (S (S n)) o rest s e false env0 = None ->
  forall k, search_rounds E ci fuel b line k o rest s e false env0 = None.
Proof.
  induction n as [|n IH]; intros s env0 L Ln H k.
  - replace s with (length b) in * by lia. eapply stuck_end; eauto.
  - destruct k as [|k]; [reflexivity|]. cbn [search_rounds]. change (search_rounds E ci fuel b line (S (S (S n))) o rest s e false env0) with
      (match part_at o (mkRange s e) false (mkMach [] [] env0) with
       | Err => Some Err | Panic => Some Panic | Val None => Some (Val None)
       | Val (Some (r, m)) => match match_parts E ci fuel b line rest (rend r) e m with
           | Err => Some Err | Panic => Some Panic | Val (inr (stop, m')) => Some (Val (Some (mkRange (rstart r) stop, m')))
           | Val (inl stop) => search_rounds E ci fuel b line (S (S n)) o rest (Nat.min (Nat.max stop (S s)) (length b)) e false env0 end end) in H.
    destruct (part_at o (mkRange s e) false (mkMach [] [] env0)) as [[[r1 m1]|]| |]; try discriminate. destruct (match_parts E ci fuel b line rest (rend r1) e m1) as [[stop|[stop m2]]| |]; try discriminate.
    apply IH; auto; lia.
Qed.
Lemma rounds_stuck o rest n : op_ok o -> forall s env0, s <= length b -> length b - s <= n -> search_rounds E ci fuel b line (S (S n)) o rest s e false env0 = None ->
  e = length b /\ exists r m, part_at o (mkRange e e) false (mkMach [] [] env0) = Val (Some (r, m)) /\ r = mkRange e e.
Proof.
  intros Ok. assert (End : forall env0, search_rounds E ci fuel b line 1 o rest (length b) e false env0 = None -> e = length b /\ exists r m, part_at o (mkRange e e) false (mkMach [] [] env0) = Val (Some (r, m)) /\ r = mkRange e e).
  { intros env0 H. cbn [search_rounds] in H. destruct (part_at o (mkRange (length b) e) false (mkMach [] [] env0)) as [[[r1 m1]|]| |] eqn:P; try discriminate.
    assert (Ee : e = length b).
    { destruct (Nat.eq_dec e (length b)) as [|Ne]; [easy|]. exfalso. clear H. destruct o as [t|x gs|f c|x ty|v ty|x]; cbn [match_part rstart rend] in P; try discriminate.
      - replace (e - length b) with 0 in P by lia. discriminate.
      - destruct (rx_search E x b (mkRange (length b) e) false) as [l|] eqn:Se; [|discriminate]. destruct (eo_head _ ascii_engine_ok _ _ _ _ _ Ok Se) as (i & j & t & -> & A1 & A2 & A3 & _). cbn in *. lia.
      - unfold slice in P. cbn [rstart rend] in P. destruct (Nat.leb_spec (length b) e); [lia|]. discriminate.
      - destruct (evaluate _ _ _ _ _) as [v| |]; try discriminate. cbn [bind] in P. unfold regex_of in *. destruct (rx_build E ci _) as [y|] eqn:B; [|discriminate]. cbn [bind] in P.
        assert (Md : made E y) by (eexists; eexists; exact B). destruct (rx_search E y b (mkRange (length b) e) false) as [l|] eqn:Se; [|discriminate]. destruct (eo_head _ ascii_engine_ok _ _ _ _ _ Md Se) as (i & j & t & -> & A1 & A2 & A3 & _). cbn in *. lia. }
    split; [exact Ee|]. rewrite <- Ee in P. exists r1, m1. split; [exact P|]. assert (Le : e <= e) by lia. pose proof (found_stands ci fuel b line e Be o e _ r1 m1 Ok Le P) as (_ & B1 & B2). destruct r1 as [x y]. cbn in *. f_equal; lia. }
  induction n as [|n IH]; intros s env0 L Ln H.
  - apply End. replace s with (length b) in * by lia. destruct (search_rounds E ci fuel b line 1 o rest (length b) e false env0) eqn:S1; [|easy]. apply rounds_more with (k := 2) in S1; [congruence|lia].
  - change (search_rounds E ci fuel b line (S (S (S n))) o rest s e false env0) with
      (match part_at o (mkRange s e) false (mkMach [] [] env0) with
       | Err => Some Err | Panic => Some Panic | Val None => Some (Val None)
       | Val (Some (r, m)) => match match_parts E ci fuel b line rest (rend r) e m with
           | Err => Some Err | Panic => Some Panic | Val (inr (stop, m')) => Some (Val (Some (mkRange (rstart r) stop, m')))
           | Val (inl stop) => search_rounds E ci fuel b line (S (S n)) o rest (Nat.min (Nat.max stop (S s)) (length b)) e false env0 end end) in H.
    destruct (part_at o (mkRange s e) false (mkMach [] [] env0)) as [[[r1 m1]|]| |]; try discriminate. destruct (match_parts E ci fuel b line rest (rend r1) e m1) as [[stop|[stop m2]]| |]; try discriminate.
    apply IH in H; auto; lia.
Qed.
End Fixed.
