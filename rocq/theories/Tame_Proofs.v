(** Two pattern languages such that whatever is found (not found, for CHECK-NOT) in the first is so in the second:
    a run that passes with the first passes with the second. *)
From Verif Require Import Base Text_Model Cursor_Model Cursor_Proofs Check_Model Program_Model Sim_Proofs.
Open Scope list_scope.
Ltac splits := repeat match goal with |- _ /\ _ => split end.

Ltac binv H := match type of H with bind ?e _ = Val _ => let E := fresh "E" in destruct e eqn:E; cbn [bind] in H; [|discriminate H|discriminate H] end.
Lemma like_val {A B} (R : A -> B -> Prop) x y a : like R x y -> x = Val a -> exists b, y = Val b /\ R a b.
Proof. intros H E. destruct H; try discriminate. injection E as <-. eauto. Qed.

(** * Errors stay *)
Section Errors.
Context {L : lang}.
Definition grown (t t' : test_result) : Prop := t_errors t' = [] -> t_errors t = [].
Lemma grown_refl t : grown t t. Proof. easy. Qed.
Lemma grown_trans a b c : grown a b -> grown b c -> grown a c. Proof. unfold grown. auto. Qed.
Lemma grown_pass t n : grown t (t_pass t n). Proof. easy. Qed.
Lemma grown_fail t e t' : grown (t_fail t e) t' -> t_errors t' <> [].
Proof. intros H E. apply H in E. cbn in E. now destruct (t_errors t). Qed.
Lemma grown_failed t e t' : grown (t_fail t e) t' -> grown t t'.
Proof. intros H E. exfalso. eapply grown_fail; eauto. Qed.
Lemma tree_not_grown (ps : list (pat L)) r t s ex t1 s1 : tree_not ps r t s = Val (ex, t1, s1) -> grown t t1.
Proof. unfold tree_not. destruct (check_not ps r s) as [[[i|u] s']| |]; intros [= _ <- _]; easy. Qed.
Lemma ordered_grown (rs : list (rule L)) : forall ms t s x t1 s1, check_ordered rs ms t s = Val (x, t1, s1) -> grown t t1.
Proof.
  induction rs as [|r rs IH]; intros ms t s x t1 s1; cbn [check_ordered].
  - intros H. binv H. injection H as _ <- _. easy.
  - destruct (apply_rule r s) as [[m s']| |]; [|intros H; apply IH in H; now apply grown_failed in H|discriminate].
    destruct (ms_ok m); [apply IH|]. intros [= _ <- _]. apply grown_failed with (match flat_map (fun m => match m_ty m with Failed e => [e] | _ => [] end) m, rs with [e], [] => e | _, _ => EGroup end). apply grown_refl.
Qed.
Lemma repeated_grown (r : rule L) n : forall ms t s x t1 s1, check_repeated r n ms t s = Val (x, t1, s1) -> grown t t1.
Proof.
  induction n as [|n IH]; intros ms t s x t1 s1; cbn [check_repeated]; [now intros [= _ <- _]|].
  destruct (apply_rule r s) as [[m s']| |]; cbn zeta; [|intros [= _ <- _]; apply grown_failed with ENote, grown_refl|discriminate].
  destruct (existsb _ m); [|apply IH]. intros [= _ <- _]. apply grown_failed with ERepeated, grown_refl.
Qed.
Lemma expect_inv x (g : gres) (t : test_result) (s : state L) : expect_tree x = Val (g, t, s) -> x = Val (g, t, s) /\ forall e, g <> GFail e.
Proof. unfold expect_tree. intros H. binv H. destruct a as [[g0 t0] s0]. destruct g0; inversion H; subst; split; auto; discriminate. Qed.
Lemma append_one_grown t m : grown t (append_one t m).
Proof. unfold append_one. destruct (m_ty m) as [| |e]; [| |apply grown_failed with e, grown_refl]; destruct (m_info m); easy. Qed.
Lemma append_grown ms : forall t, grown t (append_matches t ms).
Proof. unfold append_matches. induction ms as [|m ms IH]; intros t; cbn [fold_left]; [easy|]. eapply grown_trans; [|apply IH]. apply append_one_grown. Qed.
Lemma appends_grown mss : forall t, grown t (fold_left append_matches mss t).
Proof. induction mss as [|m ms IH]; intros t; cbn [fold_left]; [easy|]. eapply grown_trans; [|apply IH]. apply append_grown. Qed.
Lemma append_ok ms : forall t, t_errors (append_matches t ms) = [] -> ms_ok ms = true.
Proof.
  unfold append_matches, ms_ok. induction ms as [|m ms IH]; intros t H; cbn [fold_left forallb] in *; [reflexivity|].
  apply andb_true_intro. split; [|eapply IH; exact H]. apply (append_grown ms) in H. unfold append_one in H. unfold m_is_ok. destruct (m_ty m); try reflexivity.
  exfalso. eapply grown_fail; [apply grown_refl|exact H].
Qed.
Lemma appends_ok mss : forall t, t_errors (fold_left append_matches mss t) = [] -> Forall (fun ms => ms_ok ms = true) mss.
Proof.
  induction mss as [|m ms IH]; intros t H; cbn [fold_left] in H; constructor; [|eapply IH; exact H].
  apply appends_grown in H. eapply append_ok; exact H.
Qed.
Scheme group_ind3 := Induction for group Sort Prop with tree_ind3 := Induction for tree Sort Prop.
Combined Scheme group_tree_ind3 from group_ind3, tree_ind3.
Lemma group_tree_grown : (forall (g : group L) t s x t1 s1, check_group g t s = Val (x, t1, s1) -> grown t t1) /\
  (forall (g : tree L) t s x t1 s1, check_tree g t s = Val (x, t1, s1) -> grown t t1).
Proof.
  apply group_tree_ind3.
  - intros ps t s x t1 s1. cbn [check_group]. intros H. binv H. destruct (check_not ps a s) as [[[i|u] s']| |]; inversion H; subst; easy.
  - intros ds t s x t1 s1. cbn [check_group]. intros H. destruct (apply_dag ds s) as [[ms s']| |]; [|inversion H; subst; apply grown_failed with ENote, grown_refl|discriminate].
    binv H. now inversion H; subst.
  - intros ds g IH t s x t1 s1. cbn [check_group]. intros H.
    assert (K : forall s2 (k : gres -> test_result -> state L -> res (gres * test_result * state L)),
      (do (y, t2, s3) <- check_group g t s2; k y t2 s3) = Val (x, t1, s1) -> (forall y t2 s3, k y t2 s3 = Val (x, t1, s1) -> grown t2 t1) -> grown t t1).
    { intros s2 k H1 H2. binv H1. destruct a as [[y t2] s3]. apply IH in E. eapply grown_trans; [exact E|]. eapply H2; exact H1. }
    destruct (apply_dag ds s) as [[ms s']| |]; [| |discriminate]; (apply (K _ _ H); clear H; intros y t2 s3 H; destruct y as [rm|rm|er]).
    + destruct rm as [|r0 rm]; [discriminate|]. binv H. binv H. binv H. now inversion H; subst.
    + binv H. now inversion H; subst.
    + binv H. inversion H; subst. apply grown_failed with ENote, grown_refl.
    + destruct rm as [|r0 rm]; [discriminate|]. binv H. binv H. inversion H; subst. apply grown_failed with ENote, grown_refl.
    + inversion H; subst. apply grown_failed with ENote, grown_refl.
    + inversion H; subst. apply grown_failed with ENote, grown_failed with ENote, grown_refl.
  - intros rs t s x t1 s1. apply ordered_grown.
  - intros r n t s x t1 s1. apply repeated_grown.
  - intros tr IH. exact IH.
  - intros g IH. exact IH.
  - intros root lt IHl rt IHr t s x t1 s1. cbn [check_tree]. intros H. binv H. destruct a as [[gl t2] s2]. apply expect_inv in E as [E _]. apply IHl in E.
    destruct gl as [lm|lm|er]; [| |discriminate].
    + binv H. binv H. binv H. destruct a1 as [[gr t3] s3]. apply expect_inv in E2 as [E2 _]. apply IHr in E2. destruct gr as [rm|rm|er]; [| |discriminate].
      * binv H. binv H. binv H. binv H. destruct a4 as [[ex t4] s4]. apply tree_not_grown in E6. inversion H; subst. eauto using grown_trans.
      * inversion H; subst. eauto using grown_trans, grown_pass.
    + cbn zeta in H. binv H. destruct a as [[gr t3] s3]. apply expect_inv in E0 as [E0 _]. apply IHr in E0. destruct gr as [rm|rm|er]; [| |discriminate].
      * binv H. binv H. binv H. binv H. destruct a2 as [[ex t4] s4]. apply tree_not_grown in E4. inversion H; subst. eauto using grown_trans.
      * inversion H; subst. eauto using grown_trans, grown_pass.
  - intros root lt IHl t s x t1 s1. cbn [check_tree]. cbn zeta. intros H. binv H. destruct a as [[gl t2] s2]. apply expect_inv in E as [E _]. apply IHl in E.
    destruct gl as [lm|lm|er]; [| |discriminate].
    + binv H. binv H. binv H. destruct a1 as [[ex t4] s4]. apply tree_not_grown in E2. inversion H; subst. eauto using grown_trans.
    + binv H. binv H. destruct a0 as [[ex t4] s4]. apply tree_not_grown in E1. inversion H; subst. eauto using grown_trans.
  - intros root rt IHr t s x t1 s1. cbn [check_tree]. cbn zeta. intros H. binv H. destruct a as [[gl t2] s2]. apply expect_inv in E as [E _]. apply IHr in E.
    destruct gl as [rm|rm|er]; [| |discriminate].
    + binv H. binv H. binv H. binv H. destruct a2 as [[ex t4] s4]. apply tree_not_grown in E3. inversion H; subst. eauto using grown_trans.
    + inversion H; subst. eauto using grown_trans, grown_pass.
Qed.
Lemma groups_grown (gs : list (group L)) : forall t s t1 s1, check_groups gs t s = Val (t1, s1) -> grown t t1.
Proof.
  induction gs as [|g gs IH]; intros t s t1 s1; cbn [check_groups]; [now intros [= <- _]|]. intros H. binv H. destruct a as [[x t2] s2]. cbn zeta in H.
  apply group_tree_grown in E. apply IH in H. eapply grown_trans; [exact E|]. eapply grown_trans; [|exact H].
  destruct x as [mss|mss|er]; [apply appends_grown|apply appends_grown|apply grown_failed with er, grown_refl].
Qed.
Lemma discover_errors (secs : list (section L)) : forall i s rb er bs er1 s1, discover i secs s rb er = Val (bs, er1, s1) -> er1 = [] -> er = [].
Proof.
  induction secs as [|x secs IH]; intros i s rb er bs er1 s1; cbn [discover]; [now intros [= _ <- _]|]. destruct x as [p body|g]; [|apply IH].
  intros H N. binv H. cbn zeta in H. assert (K : forall rb e, discover (S i) secs s rb (er ++ [e]) = Val (bs, er1, s1) -> False).
  { intros rb' e H'. apply IH in H'; auto. now destruct er. }
  destruct (pm p (buf s) a (s_env s)) as [[m e]| |]; [|destruct (K _ _ H)|discriminate]. destruct (m_info m) as [info|]; [|destruct (K _ _ H)].
  binv H. binv H. binv H. eapply IH; eauto.
Qed.
End Errors.

(** * Passing runs *)
Section Le.
Context {L L' : lang} (RE : env L -> env L' -> Prop) (Enter : forall e e', RE e e' -> RE (enter e) (enter e')).
Definition fails (m : mresult) : bool := match m_ty m with Failed e => labelled e | _ => false end.
Definition pat_le (p : pat L) (p' : pat L') : Prop := forall b r e e' m e1, inside b r -> RE e e' -> pm p b r e = Val (m, e1) ->
  (m_is_ok m = true /\ m_info m <> None /\ exists e1', pm p' b r e' = Val (m, e1') /\ RE e1 e1') \/ fails m = true.
Definition label_le (p : pat L) (p' : pat L') : Prop := forall b r e e' m e1 i, inside b r -> RE e e' -> pm p b r e = Val (m, e1) -> m_info m = Some i ->
  exists m' e1', pm p' b r e' = Val (m', e1') /\ m_info m' = Some i.
Definition nots_le (ps : list (pat L)) (ps' : list (pat L')) : Prop := length ps = length ps' /\
  forall b r e e' m e1, inside b r -> RE e e' -> nm ps b r e = Val (m, e1) -> m_is_ok m = false ->
  exists m' e1', nm ps' b r e' = Val (m', e1') /\ m_is_ok m' = false /\ RE e1 e1'.
Definition dags_le (ps : list (pat L)) (ps' : list (pat L')) : Prop :=
  forall b r e e' ms e1 pos, inside b r -> RE e e' -> dm ps b r e = Val (ms, e1, pos) -> ms_ok ms = true ->
  exists e1', dm ps' b r e' = Val (ms, e1', pos) /\ RE e1 e1'.
Notation st := (st_like RE).
Notation rl := (rule_like pat_le).
Notation gl := (group_like pat_le nots_le dags_le).
Notation tl := (tree_like pat_le nots_le dags_le).
Notation sl := (section_like pat_le label_le nots_le dags_le).
Lemma cur_le s s' : st s s' -> s_cur s' = s_cur s. Proof. now intros []. Qed.
Lemma move_le s s' n s1 : st s s' -> move_start s n = Val s1 -> exists s1', move_start s' n = Val s1' /\ st s1 s1'.
Proof. intros H E. exact (like_val _ _ _ _ (move_like RE s s' n H) E). Qed.
Lemma advance_le m s s' s1 : st s s' -> advance m s = Val s1 -> exists s1', advance m s' = Val s1' /\ st s1 s1'.
Proof. intros H E. exact (like_val _ _ _ _ (advance_like RE m s s' H) E). Qed.
Lemma fails_not_ok m : fails m = true -> m_is_ok m = false.
Proof. unfold fails, m_is_ok. now destruct (m_ty m). Qed.
Lemma match_le p p' r s s' m s1 : pat_le p p' -> inside (buf s) r -> st s s' -> match_mut p r s = Val (m, s1) ->
  (m_is_ok m = true /\ m_info m <> None /\ exists s1', match_mut p' r s' = Val (m, s1') /\ st s1 s1') \/ fails m = true.
Proof.
  intros P In S H. revert In H. destruct S as [c e e' R]. unfold match_mut, buf. cbn [s_cur s_env]. intros In H. binv H. destruct a as [m0 e0]. injection H as <- <-.
  destruct (P _ _ _ _ _ _ In R E) as [(O & I & e1' & E' & R')|F]; [|now right]. left. splits; auto. rewrite E'. cbn [bind]. rewrite O. eexists. split; [reflexivity|now constructor].
Qed.
Ltac insb := unfold buf; eapply bounds_inside; match goal with H : _ = Val ?r |- bounds_of _ _ _ = Val ?r => exact H end.
Lemma rule_le r r' s s' ms s1 : rl r r' -> st s s' -> apply_rule r s = Val (ms, s1) ->
  (ms_ok ms = true /\ exists s1', apply_rule r' s' = Val (ms, s1') /\ st s1 s1') \/ existsb fails ms = true.
Proof.
  intros R S H. destruct R as [p p' P|p p' P|p p' P|]; cbn [apply_rule] in *.
  - unfold apply_plain in *. rewrite (cur_le _ _ S). binv H. cbn [bind]. binv H. destruct a0 as [m s2]. binv H. injection H as <- <-.
    destruct (match_le p p' a s s' m s2 P ltac:(insb) S E0) as [(O & I & s2' & -> & S2)|F]; [|right; cbn; now rewrite F].
    left. split; [cbn; now rewrite O|]. cbn [bind]. destruct (advance_le _ _ _ _ S2 E1) as (s3' & -> & S3). cbn [bind]. eauto.
  - unfold apply_next in *. rewrite (cur_le _ _ S). cbn zeta in *. binv H. cbn [bind]. binv H. cbn [bind]. destruct (_ <=? _).
    + right. binv H. now injection H as <- _.
    + binv H. cbn [bind]. binv H. destruct a2 as [m s2]. binv H. injection H as <- <-.
      destruct (match_le p p' a1 s s' m s2 P ltac:(insb) S E2) as [(O & I & s2' & -> & S2)|F]; [|right; cbn; now rewrite F].
      left. split; [cbn; now rewrite O|]. cbn [bind]. destruct (advance_le _ _ _ _ S2 E3) as (s3' & -> & S3). cbn [bind]. eauto.
  - unfold apply_same in *. rewrite (cur_le _ _ S). binv H. cbn [bind]. binv H. destruct a0 as [m s2].
    destruct (match_le p p' a s s' m s2 P ltac:(insb) S E0) as [(O & I & s2' & -> & S2)|F].
    + cbn [bind]. destruct (m_info m) as [i|]; [|congruence]. rewrite O in *. rewrite (cur_le _ _ S2). binv H. cbn [bind]. binv H. injection H as <- <-.
      left. split; [cbn; now rewrite O|]. destruct (move_le _ _ _ _ S2 E2) as (s3' & -> & S3). cbn [bind]. eauto.
    + right. destruct (m_info m) as [i|].
      * rewrite (fails_not_ok _ F) in H. injection H as <- _. cbn. now rewrite F.
      * binv H. binv H. destruct a1 as [m2 s3]. destruct (m_info m2); injection H as <- _; cbn; [reflexivity|now rewrite F].
  - unfold apply_empty in *. rewrite (cur_le _ _ S). cbn zeta in *. binv H. cbn [bind]. binv H. cbn [bind]. binv H. cbn [bind]. destruct (_ && _)%bool.
    + left. binv H. injection H as <- <-. destruct (move_le _ _ _ _ S E2) as (s3' & -> & S3). cbn [bind]. split; [reflexivity|eauto].
    + right. binv H. now injection H as <- _.
Qed.
Lemma fails_not_all ms : existsb fails ms = true -> ms_ok ms = false.
Proof. unfold ms_ok. induction ms as [|m ms IH]; cbn; [discriminate|]. destruct (fails m) eqn:F; cbn; [now rewrite (fails_not_ok m F)|]. intros H. rewrite (IH H). apply andb_false_r. Qed.
Lemma dag_le ds ds' s s' ms s1 : dags_le ds ds' -> st s s' -> apply_dag ds s = Val (ms, s1) -> ms_ok ms = true -> exists s1', apply_dag ds' s' = Val (ms, s1') /\ st s1 s1'.
Proof.
  intros D S H O. revert H. destruct S as [c e e' R]. unfold apply_dag, buf. cbn [s_cur s_env]. intros H. binv H. cbn [bind]. binv H. destruct a0 as [[ms0 e1] pos].
  binv H. injection H as -> <-. destruct (D _ _ _ _ _ _ _ ltac:(eapply bounds_inside; exact E) R E0 O) as (e1' & -> & R1). cbn [bind]. rewrite E1. cbn [bind].
  eexists. split; [reflexivity|]. rewrite O. now constructor.
Qed.
Lemma not_le ps ps' r s s' s1 : nots_le ps ps' -> inside (buf s) r -> st s s' -> check_not ps r s = Val (inr tt, s1) -> exists s1', check_not ps' r s' = Val (inr tt, s1') /\ st s1 s1'.
Proof.
  intros [_ N] In S H. revert In H. destruct S as [c e e' R]. unfold check_not, buf. cbn [s_cur s_env]. intros In H. binv H. destruct a as [m e1].
  assert (X : m_is_ok m = false /\ s1 = mkState c e1).
  { destruct (m_is_ok m); destruct (m_info m); cbn in H; try discriminate; injection H as <-; auto. }
  destruct X as [X ->]. destruct (N _ _ _ _ _ _ In R E X) as (m' & e1' & -> & O & R1). cbn [bind]. rewrite O. cbn. exists (mkState c e1'). split; [|now constructor]. destruct (m_info m'); reflexivity.
Qed.
Lemma tree_not_le ps ps' r t s s' ex t1 s1 : nots_le ps ps' -> inside (buf s) r -> st s s' -> tree_not ps r t s = Val (ex, t1, s1) -> Forall (fun ms => ms_ok ms = true) ex ->
  exists s1', tree_not ps' r t s' = Val (ex, t1, s1') /\ st s1 s1'.
Proof.
  intros N In S H F. unfold tree_not in *. destruct (check_not ps r s) as [[[i|[]] s2]| |] eqn:E.
  - injection H as <- _ _. inversion F as [|? ? X]; discriminate X.
  - injection H as <- <- <-. destruct (not_le _ _ r _ _ _ N In S E) as (s1' & -> & S1). rewrite (proj1 N). eauto.
  - injection H as <- _ _. inversion F as [|? ? X]; discriminate X.
  - discriminate.
Qed.
Lemma ordered_le rs rs' : Forall2 rl rs rs' -> forall ms t s s' x t1 s1, st s s' -> check_ordered rs ms t s = Val (x, t1, s1) -> t_errors t1 = [] ->
  exists s1', check_ordered rs' ms t s' = Val (x, t1, s1') /\ st s1 s1'.
Proof.
  induction 1 as [|r r' rs rs' R F IH]; intros ms t s s' x t1 s1 S H N; cbn [check_ordered] in *.
  - binv H. injection H as <- <- <-. cbn [bind]. eauto.
  - destruct (apply_rule r s) as [[m s2]| |] eqn:E; [|apply ordered_grown, grown_fail in H; congruence|discriminate].
    destruct (rule_le r r' s s' m s2 R S E) as [(O & s2' & -> & S2)|X].
    + rewrite O in *. eauto.
    + rewrite (fails_not_all _ X) in H. injection H as _ <- _. exfalso. eapply grown_fail; [apply grown_refl|exact N].
Qed.
Lemma repeated_le r r' n : rl r r' -> forall ms t s s' x t1 s1, st s s' -> check_repeated r n ms t s = Val (x, t1, s1) -> t_errors t1 = [] ->
  exists s1', check_repeated r' n ms t s' = Val (x, t1, s1') /\ st s1 s1'.
Proof.
  intros R. induction n as [|n IH]; intros ms t s s' x t1 s1 S H N; cbn [check_repeated] in *; [injection H as <- <- <-; eauto|].
  destruct (apply_rule r s) as [[m s2]| |] eqn:E; [| |discriminate].
  - cbn zeta in *. change (existsb (fun m => match m_ty m with Failed e => labelled e | _ => false end) m) with (existsb fails m) in *.
    destruct (rule_le r r' s s' m s2 R S E) as [(O & s2' & -> & S2)|X].
    + cbn zeta. change (existsb (fun m => match m_ty m with Failed e => labelled e | _ => false end) m) with (existsb fails m).
      destruct (existsb fails m) eqn:X; [apply fails_not_all in X; congruence|]. eauto.
    + rewrite X in H. injection H as _ <- _. exfalso. eapply grown_fail; [apply grown_refl|exact N].
  - injection H as _ <- _. exfalso. eapply grown_fail; [apply grown_refl|exact N].
Qed.
Definition fine (g : gres) : Prop := match g with GOk mss | GErr mss => Forall (fun ms => ms_ok ms = true) mss | GFail _ => False end.
Lemma expect_le x g t s : x = Val (g, t, s) -> (forall e, g <> GFail e) -> expect_tree (L:=L') x = Val (g, t, s).
Proof. intros -> N. unfold expect_tree. cbn [bind]. destruct g; auto. now destruct (N e). Qed.
Lemma rewritten_ok n ms : ms_ok (map (rewrite_left n) ms) = true -> ms_ok ms = true.
Proof.
  unfold ms_ok. induction ms as [|m ms IH]; cbn; [auto|]. rewrite !andb_true_iff. intros [A B]. split; [|auto]. revert A. unfold rewrite_left, m_is_ok.
  destruct (m_info m); [|auto]. destruct (_ || _)%bool; [|auto]. destruct (m_ty m) as [| |[]] eqn:Et; cbn; rewrite ?Et; cbn; intros; auto; try discriminate.
Qed.
Lemma group_tree_le : (forall g g', gl g g' -> forall t s s' x t1 s1, st s s' -> check_group g t s = Val (x, t1, s1) -> t_errors t1 = [] -> fine x ->
    exists s1', check_group g' t s' = Val (x, t1, s1') /\ st s1 s1') /\
  (forall g g', tl g g' -> forall t s s' x t1 s1, st s s' -> check_tree g t s = Val (x, t1, s1) -> t_errors t1 = [] -> fine x ->
    exists s1', check_tree g' t s' = Val (x, t1, s1') /\ st s1 s1').
Proof.
  assert (G : (forall (g : group L) g', gl g g' -> forall t s s' x t1 s1, st s s' -> check_group g t s = Val (x, t1, s1) -> t_errors t1 = [] -> fine x ->
      exists s1', check_group g' t s' = Val (x, t1, s1') /\ st s1 s1') /\
    (forall (g : tree L) g', tl g g' -> forall t s s' x t1 s1, st s s' -> check_tree g t s = Val (x, t1, s1) -> t_errors t1 = [] -> fine x ->
      exists s1', check_tree g' t s' = Val (x, t1, s1') /\ st s1 s1')); [|exact G].
  assert (Ap : forall A (P : A -> Prop) l1 l2, Forall P (l1 ++ l2) -> Forall P l1 /\ Forall P l2) by (intros A P l1 l2 F; now apply Forall_app in F).
  apply group_tree_ind3.
  - intros ps g' H t s s' x t1 s1 S R N O. inversion H as [? ps' X| | | | |]; subst. cbn [check_group] in *. rewrite (cur_le _ _ S). binv R. cbn [bind].
    destruct (check_not ps a s) as [[[i|[]] s2]| |] eqn:E0.
    + injection R as <- _ _. cbn in O. inversion O as [|? ? Y]; discriminate Y.
    + injection R as <- <- <-. destruct (not_le _ _ a _ _ _ X ltac:(insb) S E0) as (s1' & -> & S1). rewrite (proj1 X). eauto.
    + injection R as <- _ _. destruct O.
    + discriminate.
  - intros ds g' H t s s' x t1 s1 S R N O. inversion H as [|? ds' D| | | |]; subst. cbn [check_group] in *.
    destruct (apply_dag ds s) as [[ms s2]| |] eqn:E; [|injection R as _ <- _; exfalso; eapply grown_fail; [apply grown_refl|exact N]|discriminate].
    binv R. injection R as <- <- <-. assert (Om : ms_ok ms = true) by (destruct a; cbn in O; now inversion O).
    destruct (dag_le _ _ _ _ _ _ D S E Om) as (s1' & -> & S1). rewrite E0. cbn [bind]. eauto.
  - intros ds g IH g' H t s s' x t1 s1 S R N O. inversion H as [| |? ds' ? g2 D Gl| | |]; subst. cbn [check_group] in *.
    destruct (apply_dag ds s) as [[ms s2]| |] eqn:E; [| |discriminate].
    + binv R. destruct a as [[y t2] s3]. destruct y as [rm|rm|er].
      * destruct rm as [|r0 rm]; [discriminate|]. binv R. binv R. binv R. injection R as <- <- <-. cbn [fine] in O. inversion O as [|? ? O1 O2]; subst.
        assert (Om : ms_ok ms = true) by (destruct a1; [destruct (_ || _)%bool; [now apply rewritten_ok in O1|exact O1]|exact O1]).
        destruct (dag_le _ _ _ _ _ _ D S E Om) as (s2' & -> & S2). cbn [bind]. destruct (IH _ Gl _ _ _ _ _ _ S2 E0 N O2) as (s3' & -> & S3). cbn [bind].
        rewrite E1. cbn [bind]. rewrite E2. cbn [bind]. rewrite E3. cbn [bind]. eauto.
      * binv R. injection R as <- <- <-. assert (O' : ms_ok ms = true /\ Forall (fun ms => ms_ok ms = true) rm) by (destruct a; cbn in O; now inversion O). destruct O' as [Om O2].
        destruct (dag_le _ _ _ _ _ _ D S E Om) as (s2' & -> & S2). cbn [bind]. destruct (IH _ Gl _ _ _ _ _ _ S2 E0 N O2) as (s3' & -> & S3). cbn [bind].
        rewrite E1. cbn [bind]. eauto.
      * binv R. injection R as _ <- _. exfalso; eapply grown_fail; [apply grown_refl|exact N].
    + exfalso. binv R. destruct a as [[y t2] s3]. destruct y as [rm|rm|er].
      * destruct rm as [|r0 rm]; [discriminate|]. binv R. binv R. injection R as _ <- _. eapply grown_fail; [apply grown_refl|exact N].
      * injection R as _ <- _. eapply grown_fail; [apply grown_refl|exact N].
      * injection R as _ <- _. eapply grown_fail; [apply grown_refl|exact N].
  - intros rs g' H t s s' x t1 s1 S R N _. inversion H; subst. cbn [check_group] in *. eapply ordered_le; eauto.
  - intros r n g' H t s s' x t1 s1 S R N _. inversion H; subst. cbn [check_group] in *. eapply repeated_le; eauto.
  - intros tr IH g' H t s s' x t1 s1 S R N O. inversion H; subst. cbn [check_group] in *. eauto.
  - intros g IH g' H t s s' x t1 s1 S R N O. inversion H; subst. cbn [check_tree] in *. eauto.
  - intros root lt IHl rt IHr g' H t s s' x t1 s1 S R N O. inversion H as [|? root' ? lt' ? rt' Nt Hl Hr| |]; subst. cbn [check_tree] in *.
    binv R. destruct a as [[gl0 t2] s2]. apply expect_inv in E as [E Ne].
    assert (Kr : forall lm, (gl0 = GOk lm \/ gl0 = GErr lm) -> t_errors t2 = [] -> Forall (fun ms => ms_ok ms = true) lm ->
      exists s2', expect_tree (check_tree lt' t s') = Val (gl0, t2, s2') /\ st s2 s2').
    { intros lm Eg N2 O2. destruct (IHl _ Hl _ _ _ _ _ _ S E N2) as (s2' & E' & S2); [destruct Eg; subst; exact O2|]. exists s2'. split; [|exact S2]. now apply expect_le. }
    destruct gl0 as [lm|lm|er]; [| |discriminate].
    + binv R. binv R. binv R. destruct a1 as [[gr t3] s3]. apply expect_inv in E2 as [E2 Ne2]. destruct gr as [rm|rm|er]; [| |discriminate].
      * binv R. binv R. binv R. binv R. destruct a4 as [[ex t4] s4]. injection R as <- <- <-. cbn [fine] in O. apply Ap in O as [O1 O]. apply Ap in O as [Ox O2].
        pose proof (tree_not_grown _ _ _ _ _ _ _ E6 N) as N3. pose proof (proj2 group_tree_grown _ _ _ _ _ _ E2 N3) as N2.
        destruct (Kr lm) as (s2' & -> & S2); auto. cbn [bind]. rewrite E0. cbn [bind]. rewrite E1. cbn [bind].
        destruct (IHr _ Hr _ _ _ _ _ _ S2 E2 N3 O2) as (s3' & E' & S3). rewrite (expect_le _ _ _ _ E' Ne2). cbn [bind]. rewrite E3. cbn [bind]. rewrite E4. cbn [bind].
        rewrite (cur_le _ _ S3), E5. cbn [bind]. destruct (tree_not_le _ _ a3 _ _ _ _ _ _ Nt ltac:(insb) S3 E6 Ox) as (s4' & -> & S4). cbn [bind]. eauto.
      * injection R as <- <- <-. cbn [fine] in O. apply Ap in O as [O1 O2]. pose proof (proj2 group_tree_grown _ _ _ _ _ _ E2 N) as N2.
        destruct (Kr lm) as (s2' & -> & S2); auto. cbn [bind]. rewrite E0. cbn [bind]. rewrite E1. cbn [bind].
        destruct (IHr _ Hr _ _ _ _ _ _ S2 E2 N O2) as (s3' & E' & S3). rewrite (expect_le _ _ _ _ E' Ne2). cbn [bind]. rewrite (proj1 Nt). eauto.
    + cbn zeta in *. binv R. destruct a as [[gr t3] s3]. apply expect_inv in E0 as [E0 Ne2]. destruct gr as [rm|rm|er]; [| |discriminate].
      * binv R. binv R. binv R. binv R. destruct a2 as [[ex t4] s4]. injection R as <- <- <-. cbn [fine] in O. apply Ap in O as [O1 O]. apply Ap in O as [Ox O2].
        pose proof (tree_not_grown _ _ _ _ _ _ _ E4 N) as N3. pose proof (proj2 group_tree_grown _ _ _ _ _ _ E0 N3) as N2.
        destruct (Kr lm) as (s2' & -> & S2); auto. cbn [bind]. rewrite (cur_le _ _ S2).
        destruct (IHr _ Hr _ _ _ _ _ _ S2 E0 N3 O2) as (s3' & E' & S3). rewrite (expect_le _ _ _ _ E' Ne2). cbn [bind]. rewrite E1. cbn [bind]. rewrite E2. cbn [bind].
        rewrite (cur_le _ _ S3), E3. cbn [bind]. destruct (tree_not_le _ _ a1 _ _ _ _ _ _ Nt ltac:(insb) S3 E4 Ox) as (s4' & -> & S4). cbn [bind]. eauto.
      * injection R as <- <- <-. cbn [fine] in O. apply Ap in O as [O1 O2]. pose proof (proj2 group_tree_grown _ _ _ _ _ _ E0 N) as N2.
        destruct (Kr lm) as (s2' & -> & S2); auto. cbn [bind].
        destruct (IHr _ Hr _ _ _ _ _ _ S2 E0 N O2) as (s3' & E' & S3). rewrite (expect_le _ _ _ _ E' Ne2). cbn [bind]. rewrite (proj1 Nt). eauto.
  - intros root lt IHl g' H t s s' x t1 s1 S R N O. inversion H as [| |? root' ? lt' Nt Hl|]; subst. cbn [check_tree] in *. rewrite (cur_le _ _ S). cbn zeta in *.
    binv R. destruct a as [[gl0 t2] s2]. apply expect_inv in E as [E Ne]. destruct gl0 as [lm|lm|er]; [| |discriminate].
    + binv R. binv R. binv R. destruct a1 as [[ex t4] s4]. injection R as <- <- <-. cbn [fine] in O. apply Ap in O as [O1 Ox].
      pose proof (tree_not_grown _ _ _ _ _ _ _ E2 N) as N2. destruct (IHl _ Hl _ _ _ _ _ _ S E N2 O1) as (s2' & E' & S2). rewrite (expect_le _ _ _ _ E' Ne). cbn [bind].
      rewrite E0. cbn [bind]. rewrite (cur_le _ _ S2), E1. cbn [bind]. destruct (tree_not_le _ _ a0 _ _ _ _ _ _ Nt ltac:(insb) S2 E2 Ox) as (s4' & -> & S4). cbn [bind]. eauto.
    + binv R. binv R. destruct a0 as [[ex t4] s4]. injection R as <- <- <-. cbn [fine] in O. apply Ap in O as [O1 Ox].
      pose proof (tree_not_grown _ _ _ _ _ _ _ E1 N) as N2. destruct (IHl _ Hl _ _ _ _ _ _ S E N2 O1) as (s2' & E' & S2). rewrite (expect_le _ _ _ _ E' Ne). cbn [bind].
      rewrite (cur_le _ _ S2), E0. cbn [bind]. destruct (tree_not_le _ _ a _ _ _ _ _ _ Nt ltac:(insb) S2 E1 Ox) as (s4' & -> & S4). cbn [bind]. eauto.
  - intros root rt IHr g' H t s s' x t1 s1 S R N O. inversion H as [| | |? root' ? rt' Nt Hr]; subst. cbn [check_tree] in *. rewrite (cur_le _ _ S). cbn zeta in *.
    binv R. destruct a as [[gr0 t2] s2]. apply expect_inv in E as [E Ne]. destruct gr0 as [rm|rm|er]; [| |discriminate].
    + binv R. binv R. binv R. binv R. destruct a2 as [[ex t4] s4]. injection R as <- <- <-. cbn [fine] in O. apply Ap in O as [O1 Ox].
      pose proof (tree_not_grown _ _ _ _ _ _ _ E3 N) as N2. destruct (IHr _ Hr _ _ _ _ _ _ S E N2 O1) as (s2' & E' & S2). rewrite (expect_le _ _ _ _ E' Ne). cbn [bind].
      rewrite E0. cbn [bind]. rewrite E1. cbn [bind]. rewrite (cur_le _ _ S2), E2. cbn [bind]. destruct (tree_not_le _ _ a1 _ _ _ _ _ _ Nt ltac:(insb) S2 E3 Ox) as (s4' & -> & S4). cbn [bind]. eauto.
    + injection R as <- <- <-. cbn [fine] in O. destruct (IHr _ Hr _ _ _ _ _ _ S E N O) as (s2' & E' & S2). rewrite (expect_le _ _ _ _ E' Ne). cbn [bind]. rewrite (proj1 Nt). eauto.
Qed.
Lemma groups_le gs gs' : Forall2 gl gs gs' -> forall t s s' t1 s1, st s s' -> check_groups gs t s = Val (t1, s1) -> t_errors t1 = [] ->
  exists s1', check_groups gs' t s' = Val (t1, s1') /\ st s1 s1'.
Proof.
  induction 1 as [|g g' gs gs' G F IH]; intros t s s' t1 s1 S R N; cbn [check_groups] in *; [injection R as <- <-; eauto|].
  binv R. destruct a as [[x t2] s2]. cbn zeta in *. pose proof (groups_grown _ _ _ _ _ R N) as N2.
  assert (X : t_errors t2 = [] /\ fine x).
  { destruct x as [mss|mss|er]; [split; [eapply appends_grown; exact N2|eapply appends_ok; exact N2]..|]. exfalso. eapply grown_fail; [apply grown_refl|exact N2]. }
  destruct X as [Nt Fx]. destruct (proj1 group_tree_le _ _ G _ _ _ _ _ _ S E Nt Fx) as (s2' & -> & S2). cbn [bind]. cbn zeta. eapply IH; eauto.
Qed.
Lemma discover_le secs secs' : Forall2 sl secs secs' -> forall i s s' rb er bs s1, st s s' -> discover i secs s rb er = Val (bs, [], s1) ->
  exists s1', discover i secs' s' rb er = Val (bs, [], s1') /\ st s1 s1'.
Proof.
  induction 1 as [|x x' secs secs' X F IH]; intros i s s' rb er bs s1 Ss R; cbn [discover] in *; [injection R as <- -> <-; eauto|].
  destruct X as [p p' gs gs' P _|g g' _]; [|eauto]. rewrite (cur_le _ _ Ss). binv R. cbn [bind]. cbn zeta in *.
  assert (K : forall rb e, discover (S i) secs s rb (er ++ [e]) = Val (bs, [], s1) -> False).
  { intros rb' e H'. apply discover_errors in H'; auto. now destruct er. }
  destruct (pm p (buf s) a (s_env s)) as [[m e1]| |] eqn:Em; [|destruct (K _ _ R)|discriminate]. destruct (m_info m) as [info|] eqn:Ei; [|destruct (K _ _ R)].
  clear K. revert Em E R. destruct Ss as [c e e' Re]. unfold buf. cbn [s_cur s_env]. intros Em E R.
  destruct (P _ _ _ _ _ _ _ ltac:(eapply bounds_inside; exact E) Re Em Ei) as (m' & e1' & -> & ->). binv R. cbn [bind]. binv R. cbn [bind]. binv R. cbn [bind].
  eapply IH; [|exact R]. now constructor.
Qed.
Lemma count_le secs secs' : Forall2 sl secs secs' -> count_while (fun x => negb (is_block x)) secs = count_while (fun x => negb (is_block x)) secs'.
Proof. induction 1 as [|x x' secs secs' X F IH]; [reflexivity|]. cbn [count_while]. destruct X; cbn [is_block negb]; [reflexivity|now rewrite IH]. Qed.
Lemma discover_blocks_le secs secs' s s' bs s1 : Forall2 sl secs secs' -> st s s' -> discover_blocks secs s = Val (inl bs, s1) ->
  exists s1', discover_blocks secs' s' = Val (inl bs, s1') /\ st s1 s1'.
Proof.
  intros F S R. unfold discover_blocks in *. rewrite <- (count_le _ _ F).
  assert (E : match secs with SBlock _ _ :: _ => [] | _ => [mkBlock None (0, count_while (fun x => negb (is_block x)) secs) (Some 0) None] end =
              match secs' with SBlock _ _ :: _ => [] | _ => [mkBlock None (0, count_while (fun x => negb (is_block x)) secs) (Some 0) None] end).
  { destruct F as [|x x' secs secs' [] F]; reflexivity. }
  cbn zeta in *. rewrite <- E. binv R. destruct a as [[rb er] s2]. binv R. destruct er as [|er0 er]; [|discriminate]. injection R as <- <-.
  destruct (discover_le _ _ F _ _ _ _ _ _ _ S E0) as (s2' & -> & S2). cbn [bind]. rewrite (cur_le _ _ S2), E1. cbn [bind].
  eexists. split; [reflexivity|]. destruct S2. now constructor.
Qed.
Lemma groups_of_le secs secs' gs : Forall2 sl secs secs' -> groups_of secs = Val gs -> exists gs', groups_of secs' = Val gs' /\ Forall2 gl gs gs'.
Proof.
  unfold groups_of. intros F. revert gs. induction F as [|x x' secs secs' X F IH]; cbn [fold_right]; intros gs R; [injection R as <-; eauto|].
  binv R. destruct X as [|g g' G]; [discriminate|]. injection R as <-. destruct (IH _ eq_refl) as (gs' & -> & G'). cbn [bind]. eauto.
Qed.
Lemma check_block_le secs secs' bl t s s' t1 s1 : Forall2 sl secs secs' -> st s s' -> check_block secs bl t s = Val (t1, s1) -> t_errors t1 = [] ->
  exists s1', check_block secs' bl t s' = Val (t1, s1') /\ st s1 s1'.
Proof.
  intros F S R N. unfold check_block in *. cbn zeta in *. destruct (b_start bl) as [st0|]; [|injection R as <- <-; eauto].
  replace (buf s') with (buf s) by (now destruct S). rewrite (cur_le _ _ S). binv R. cbn [bind]. binv R. cbn [bind]. destruct (b_secs bl) as [lo hi].
  assert (S1 : st (mkState a0 (enter (s_env s))) (mkState a0 (enter (s_env s')))) by (destruct S as [c0 e e' Re]; constructor; cbn; auto).
  destruct (hi <=? lo); [injection R as <- <-; eauto|]. destruct (1 <? hi - lo).
  - binv R. destruct (groups_of_le (firstn (hi - lo) (skipn lo secs)) (firstn (hi - lo) (skipn lo secs')) a1) as (gs' & -> & G); auto; [now apply Forall2_firstn, Forall2_skipn|].
    cbn [bind]. eapply groups_le; eauto.
  - assert (Nx : forall k, match nth_error secs k, nth_error secs' k with Some x, Some x' => sl x x' | None, None => True | _, _ => False end).
    { clear -F. induction F as [|x x' secs secs' X F IH]; intros [|k]; cbn; auto; apply IH. }
    specialize (Nx lo). destruct (nth_error secs lo) as [x|], (nth_error secs' lo) as [x'|]; try easy.
    destruct Nx as [p p' gs gs' P G|g g' G]; eapply groups_le; eauto.
Qed.
Lemma check_block_grown secs bl t (s : state L) t1 s1 : check_block secs bl t s = Val (t1, s1) -> grown t t1.
Proof.
  intros R. unfold check_block in R. cbn zeta in R. assert (G : grown t (match b_label bl with Some i => t_matched t i | None => t end)) by (destruct (b_label bl); easy).
  eapply grown_trans; [exact G|]. clear G. destruct (b_start bl); [|injection R as <- _; easy]. binv R. binv R. destruct (b_secs bl) as [lo hi].
  destruct (hi <=? lo); [injection R as <- _; easy|]. destruct (1 <? hi - lo); [binv R; now apply groups_grown in R|].
  destruct (nth_error secs lo) as [[p body|g]|]; try (now apply groups_grown in R); discriminate.
Qed.
Lemma check_blocks_grown secs bs : forall t (s : state L) t1 s1, check_blocks secs bs t s = Val (t1, s1) -> grown t t1.
Proof.
  induction bs as [|bl bs IH]; intros t s t1 s1 R; cbn [check_blocks] in R; [injection R as <- _; easy|]. binv R. destruct a as [t2 s2].
  apply check_block_grown in E. apply IH in R. eauto using grown_trans.
Qed.
Lemma check_blocks_le secs secs' bs : Forall2 sl secs secs' -> forall t s s' t1 s1, st s s' -> check_blocks secs bs t s = Val (t1, s1) -> t_errors t1 = [] ->
  exists s1', check_blocks secs' bs t s' = Val (t1, s1') /\ st s1 s1'.
Proof.
  intros F. induction bs as [|bl bs IH]; intros t s s' t1 s1 S R N; cbn [check_blocks] in *; [injection R as <- <-; eauto|]. binv R. destruct a as [t2 s2].
  pose proof (check_blocks_grown _ _ _ _ _ _ R N) as N2. destruct (check_block_le _ _ _ _ _ _ _ _ F S E N2) as (s2' & -> & S2). cbn [bind]. eauto.
Qed.
Theorem check_input_le allow secs secs' b e e' t : Forall2 sl secs secs' -> RE e e' -> check_input allow secs b e = Val t -> t_errors t = [] -> check_input allow secs' b e' = Val t.
Proof.
  intros F Re R N. unfold check_input in *. binv R. cbn [bind]. destruct (_ && _)%bool; [exact R|]. binv R. destruct a0 as [bs s].
  destruct bs as [blocks|errors]; [|injection R as <-; cbn in N; subst errors].
  - assert (S : st (mkState a e) (mkState a e')) by now constructor.
    destruct (discover_blocks_le _ _ _ _ _ _ F S E0) as (s' & -> & S1). cbn [bind]. binv R. destruct a0 as [t0 s2]. injection R as <-.
    destruct (check_blocks_le _ _ _ F _ _ _ _ _ S1 E1 N) as (s2' & -> & _). reflexivity.
  - exfalso. unfold discover_blocks in E0. cbn zeta in E0. binv E0. destruct a0 as [[rb er] s2]. binv E0. destruct er; discriminate.
Qed.
End Le.
