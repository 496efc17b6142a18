(** C22 for the pattern languages whose matchers are well behaved on the patterns of the file at hand, not on
    every list of patterns. *)
From Verif Require Import Base Text_Model Text_Spec Cursor_Model Cursor_Spec Check_Model Program_Model Check_Spec File_Spec File_Proofs File_Props Sim_Proofs Tame_Proofs.
Open Scope list_scope.
Ltac splits := repeat match goal with |- _ /\ _ => split end.

(** ** What is asked of the patterns of a file *)
Section Sane.
Context {L : lang}.
(** A search that returns has found something in the range, or reports a failure. *)
Definition proper (p : pat L) : Prop := forall b s e en m en', s <= e <= length b -> pm p b (mkRange s e) en = Val (m, en') ->
  good_info (mkRange s e) m \/ exists er, m_ty m = Failed er /\ labelled er = true.
(** A set for CHECK-NOT always returns, binds nothing and does not depend on the bindings. *)
Definition steady (ps : list (pat L)) : Prop :=
  (forall b s e en, s <= e <= length b -> exists m, nm ps b (mkRange s e) en = Val (m, en) /\ (m_is_ok m = true -> good_info (mkRange s e) m)) /\
  forall b s e en1 en2 m1 m2, s <= e <= length b -> nm ps b (mkRange s e) en1 = Val (m1, en1) -> nm ps b (mkRange s e) en2 = Val (m2, en2) -> m_is_ok m1 = m_is_ok m2.
(** The matches of a set for CHECK-DAG are in order, and the cursor moves to the end of the last one. *)
Definition orderly (ds : list (pat L)) : Prop := forall b s e en ms en' pos, s <= e <= length b -> dm ds b (mkRange s e) en = Val (ms, en', pos) -> ms_ok ms = true ->
  ms <> [] /\ Forall (good_info (mkRange s e)) ms /\ in_order s (infos ms) /\ pos = Some (last_end s (infos ms)).
Definition searches (k : kind) : bool := match k with KPlain | KCount _ | KNext | KSame => true | _ => false end.
Definition sane_part (ls : list (line L)) : Prop :=
  (forall l, In l ls -> searches (l_kind l) = true -> proper (l_pat l)) /\ runs KNot steady ls /\ runs KDag orderly ls.
Definition sane (imp : option (pat L)) (f : file L) : Prop :=
  sane_part (with_implicit imp (f_prefix f)) /\ forall bl, In bl (f_blocks f) -> proper (fst bl) /\ solid (fst bl) /\ sane_part (implied imp ++ snd bl).
End Sane.

(** ** The tamed language: where the matchers of [L] misbehave, a failure is put *)
Definition withinb (r : range) (i : minfo) : bool := ((rstart r <=? rstart (i_span i)) && (rstart (i_span i) <=? rend (i_span i)) && (rend (i_span i) <=? rend r))%bool.
Definition goodb (r : range) (m : mresult) : bool := match m_ty m, m_info m with Good, Some i => withinb r i | _, _ => false end.
Lemma goodb_spec r m : goodb r m = true <-> good_info r m.
Proof.
  unfold goodb, good_info, withinb. split.
  - destruct (m_ty m); try discriminate. destruct (m_info m) as [i|]; [|discriminate]. rewrite !Bool.andb_true_iff, !Nat.leb_le. intros [[A B] C]. split; [reflexivity|]. exists i. auto.
  - intros (-> & i & -> & A & B). rewrite !Bool.andb_true_iff, !Nat.leb_le. lia.
Qed.
Fixpoint orderb (pos : nat) (is : list minfo) : bool :=
  match is with [] => true | i :: r => ((pos <=? rstart (i_span i)) && (rstart (i_span i) <=? rend (i_span i)) && orderb (rend (i_span i)) r)%bool end.
Lemma orderb_spec is : forall pos, orderb pos is = true <-> in_order pos is.
Proof. induction is as [|i is IH]; intros pos; cbn [orderb in_order]; [tauto|]. rewrite !Bool.andb_true_iff, !Nat.leb_le, IH. tauto. Qed.
Definition endb (p q : option nat) : bool := match p, q with Some a, Some c => a =? c | _, _ => false end.
Definition dagb (r : range) (ms : matches) (pos : option nat) : bool :=
  (match ms with [] => false | _ => true end && forallb (goodb r) ms && orderb (rstart r) (infos ms) && endb pos (Some (last_end (rstart r) (infos ms))))%bool.
Lemma dagb_spec r ms pos : dagb r ms pos = true <-> ms <> [] /\ Forall (good_info r) ms /\ in_order (rstart r) (infos ms) /\ pos = Some (last_end (rstart r) (infos ms)).
Proof.
  unfold dagb. rewrite !Bool.andb_true_iff, orderb_spec, forallb_forall, Forall_forall.
  assert (A : match ms with [] => false | _ => true end = true <-> ms <> []) by (destruct ms; split; congruence).
  assert (B : endb pos (Some (last_end (rstart r) (infos ms))) = true <-> pos = Some (last_end (rstart r) (infos ms))).
  { destruct pos as [q|]; cbn [endb]; [|split; discriminate]. rewrite Nat.eqb_eq. split; [now intros ->|now intros [= ->]]. }
  rewrite A, B. assert (C : (forall x, In x ms -> goodb r x = true) <-> forall x, In x ms -> good_info r x) by (split; intros H x I; apply goodb_spec; auto). rewrite C. tauto.
Qed.
Definition insideb (b : bytes) (r : range) : bool := ((rstart r <=? rend r) && (rend r <=? length b))%bool.
Lemma insideb_spec b r : insideb b r = true <-> inside b r.
Proof. unfold insideb, inside. rewrite Bool.andb_true_iff, !Nat.leb_le. tauto. Qed.
Lemma insideb_mk b s e : s <= e <= length b -> insideb b (mkRange s e) = true.
Proof. intros H. apply insideb_spec. exact H. Qed.

Section Tame.
(** [own]: whether [L]'s own answer is kept for ranges that do not lie in the input (none is ever searched) *)
Context (L : lang) (e0 : env L) (own : bool).
Definition tame_pm (p : pat L) (b : bytes) (r : range) (e : env L) : res (mresult * env L) :=
  if insideb b r then
    match pm p b r e with
    | Val (m, e1) => if (goodb r m || fails m)%bool then Val (m, e1) else Val (failed ENone, e)
    | _ => Val (failed ENone, e)
    end
  else if own then pm p b r e else Val (failed ENone, e).
Definition dummy (r : range) : mresult := mkRes Good (Some (mkInfo r 0 0)).
Definition tame_nm (ps : list (pat L)) (b : bytes) (r : range) (e : env L) : res (mresult * env L) :=
  if insideb b r then
    match nm ps b r e0 with
    | Val (m, _) => if (m_is_ok m && negb (goodb r m))%bool then Val (dummy r, e) else Val (m, e)
    | _ => Val (dummy r, e)
    end
  else if own then nm ps b r e else Val (dummy r, e).
Definition tame_dm (ds : list (pat L)) (b : bytes) (r : range) (e : env L) : res (matches * env L * option nat) :=
  if insideb b r then
    match dm ds b r e with
    | Val (ms, e1, pos) => if (negb (ms_ok ms) || dagb r ms pos)%bool then Val (ms, e1, pos) else Val ([failed ENone], e, None)
    | _ => Val ([failed ENone], e, None)
    end
  else if own then dm ds b r e else Val ([failed ENone], e, None).
Definition tame : lang := Check_Model.mkLang (pat L) (env L) tame_pm tame_nm tame_dm (@enter L).
Lemma dummy_good s e : s <= e -> good_info (mkRange s e) (dummy (mkRange s e)).
Proof. intros H. split; [reflexivity|]. eexists. split; [reflexivity|]. cbn. lia. Qed.
Lemma fails_spec m : fails m = true <-> exists er, m_ty m = Failed er /\ labelled er = true.
Proof. unfold fails. destruct (m_ty m) as [| |er]; split; try discriminate; try (intros (x & ? & ?); congruence). eauto. Qed.
Lemma tame_ok : lang_ok tame.
Proof.
  split.
  - intros p b s e en H. cbn [pm tame]. unfold tame_pm. rewrite (insideb_mk _ _ _ H).
    assert (F : exists m en', Val (failed ENone, en) = Val (m, en') /\ (good_info (mkRange s e) m \/ (exists er, m_ty m = Failed er /\ labelled er = true))) by (do 2 eexists; split; [reflexivity|right; eexists; split; reflexivity]).
    destruct (pm (l:=L) p b (mkRange s e) en) as [[m e1]| |]; try exact F. destruct (_ || _)%bool eqn:G; [|exact F]. exists m, e1. split; [reflexivity|].
    apply Bool.orb_true_iff in G as [G|G]; [left; now apply goodb_spec|right; now apply fails_spec].
  - intros ps b s e en H. cbn [nm tame]. unfold tame_nm. rewrite (insideb_mk _ _ _ H).
    assert (F : exists m, Val (dummy (mkRange s e), en) = Val (m, en) /\ (m_is_ok m = true -> good_info (mkRange s e) m)) by (eexists; split; [reflexivity|intros _; apply dummy_good; lia]).
    destruct (nm (l:=L) ps b (mkRange s e) e0) as [[m e1]| |]; try exact F. destruct (_ && _)%bool eqn:G; [exact F|]. exists m. split; [reflexivity|]. intros O. rewrite O in G. cbn in G.
    apply goodb_spec. now destruct (goodb _ _).
  - intros ps b s e en1 en2 m1 m2 H. cbn [nm tame]. unfold tame_nm. rewrite (insideb_mk _ _ _ H).
    destruct (nm (l:=L) ps b (mkRange s e) e0) as [[m e1]| |]; [destruct (_ && _)%bool| |]; intros [= <-] [= <-]; reflexivity.
  - intros ps b s e en H _. cbn [dm tame]. unfold tame_dm. rewrite (insideb_mk _ _ _ H).
    assert (F : exists ms en' pos, Val ([failed ENone], en, None) = Val (ms, en', pos) /\ (ms_ok ms = true -> ms <> [] /\ Forall (good_info (mkRange s e)) ms /\ in_order s (infos ms) /\ pos = Some (last_end s (infos ms)))).
    { do 3 eexists. split; [reflexivity|]. discriminate. }
    destruct (dm (l:=L) ps b (mkRange s e) en) as [[[ms e1] pos]| |]; try exact F. destruct (_ || _)%bool eqn:G; [|exact F]. exists ms, e1, pos. split; [reflexivity|]. intros O. rewrite O in G. cbn [negb orb] in G.
    apply dagb_spec in G. exact G.
Qed.

(** ** From [L] to the tamed language and back, for one pattern and one set *)
Lemma tame_pm_good p b r e m e1 : insideb b r = true -> good_info r m -> pm p b r e = Val (m, e1) -> tame_pm p b r e = Val (m, e1).
Proof. intros I G E. unfold tame_pm. rewrite I, E. apply goodb_spec in G. now rewrite G. Qed.
Lemma tame_pm_ok p b r e m e1 : tame_pm p b r e = Val (m, e1) -> m_ty m = Good \/ m_info m <> None -> pm p b r e = Val (m, e1).
Proof.
  unfold tame_pm. destruct (insideb b r); [|destruct own; [auto|intros [= <- <-] [H|H]; [discriminate|now destruct H]]]. destruct (pm p b r e) as [[m0 e2]| |]; [destruct (_ || _)%bool; [auto|]| |]; intros [= <- <-] [H|H]; try discriminate; now destruct H.
Qed.
Lemma tame_dm_ok ds b r e ms e1 pos : tame_dm ds b r e = Val (ms, e1, pos) -> ms_ok ms = true -> dm ds b r e = Val (ms, e1, pos).
Proof.
  unfold tame_dm. destruct (insideb b r); [|destruct own; [auto|intros [= <- <- <-]; discriminate]]. destruct (dm ds b r e) as [[[m0 e2] q]| |]; [destruct (_ || _)%bool; [auto|]| |]; intros [= <- <- <-]; discriminate.
Qed.
Lemma proper_le p : proper p -> pat_le (L:=L) (L':=tame) eq p p.
Proof.
  intros P b r e e' m e1 In <- E. destruct r as [s t]. destruct (P _ _ _ _ _ _ In E) as [G|F]; [|right; now apply fails_spec]. left.
  pose proof G as (Ty & i & I & _). splits; [unfold m_is_ok; now rewrite Ty|congruence|]. exists e1. split; [|reflexivity]. apply tame_pm_good; auto. now apply insideb_spec.
Qed.
Lemma label_le_in p : proper p -> solid p -> label_le (L:=L) (L':=tame) eq p p.
Proof.
  intros P So b r e e' m e1 i In <- E I. destruct r as [s t]. destruct (So _ _ _ _ _ _ In E) as [S1 _]. destruct (P _ _ _ _ _ _ In E) as [G|(er & F & _)].
  - exists m, e1. split; [|exact I]. apply tame_pm_good; auto. now apply insideb_spec.
  - rewrite S1 in I; [discriminate|]. unfold m_is_ok. now rewrite F.
Qed.
Lemma steady_le ps : steady ps -> nots_le (L:=L) (L':=tame) eq ps ps.
Proof.
  intros [S1 S2]. split; [reflexivity|]. intros b r e e' m e1 In <- E O. destruct r as [s t].
  destruct (S1 b s t e In) as (m1 & E1 & _). rewrite E in E1. injection E1 as <- ->. destruct (S1 b s t e0 In) as (m0 & E0 & _).
  assert (O0 : m_is_ok m0 = false) by (rewrite <- O; eapply S2; eauto). exists m0, e. splits; [|exact O0|reflexivity].
  cbn [nm tame]. unfold tame_nm. rewrite (proj2 (insideb_spec _ _) In), E0, O0. reflexivity.
Qed.
Lemma orderly_le ds : orderly ds -> dags_le (L:=L) (L':=tame) eq ds ds.
Proof.
  intros D b r e e' ms e1 pos In <- E O. destruct r as [s t]. exists e1. split; [|reflexivity]. cbn [dm tame]. unfold tame_dm. rewrite (proj2 (insideb_spec _ _) In), E.
  assert (X : dagb (mkRange s t) ms pos = true) by (apply dagb_spec; exact (D _ _ _ _ _ _ _ In E O)). rewrite X, Bool.orb_true_r. reflexivity.
Qed.
Lemma back_pat p : pat_le (L:=tame) (L':=L) eq p p.
Proof.
  intros b r e e' m e1 In <- E. cbn [pm tame] in E. pose proof (tame_pm_ok p b r e m e1 E) as B. destruct r as [s t]. destruct (ok_pm tame tame_ok p b s t e In) as (m' & en' & E' & D).
  cbn [pm tame] in E'. rewrite E in E'. injection E' as <- <-. destruct D as [G|F]; [|right; now apply fails_spec]. left. pose proof G as (Ty & i & I & _).
  splits; [unfold m_is_ok; now rewrite Ty|congruence|]. exists e1. split; auto.
Qed.
Lemma back_label p : label_le (L:=tame) (L':=L) eq p p.
Proof. intros b r e e' m e1 i In <- E I. exists m, e1. split; [|exact I]. apply (tame_pm_ok p b r e m e1 E). right. congruence. Qed.
Lemma back_nots (ps : list (pat L)) : steady (L:=L) ps -> nots_le (L:=tame) (L':=L) eq ps ps.
Proof.
  intros [S1 S2]. split; [reflexivity|]. intros b r e e' m e1 In <- E O. destruct r as [s t]. cbn [nm tame] in E. unfold tame_nm in E. rewrite (proj2 (insideb_spec _ _) In) in E.
  destruct (S1 b s t e0 In) as (m0 & E0 & _). rewrite E0 in E. destruct (S1 b s t e In) as (m1 & E1 & _). exists m1, e. splits; [exact E1| |].
  - destruct (_ && _)%bool eqn:G; injection E as <- <-; [discriminate|]. rewrite <- O. eapply S2; eauto.
  - destruct (_ && _)%bool; now injection E.
Qed.
Lemma back_dags ds : dags_le (L:=tame) (L':=L) eq ds ds.
Proof. intros b r e e' ms e1 pos In <- E O. exists e1. split; [|reflexivity]. now apply tame_dm_ok. Qed.

(** ** The same for a whole file *)
Definition tl (l : line L) : line tame := mkLine (L:=tame) (l_kind l) (l_pat l).
Definition tf (f : file L) : file tame := mkFile (L:=tame) (map tl (f_prefix f)) (map (fun bl => (fst bl, map tl (snd bl))) (f_blocks f)).
Lemma tf_lines f : file_lines (tf f) = map tl (file_lines f).
Proof.
  unfold file_lines, tf. cbn [f_prefix f_blocks]. rewrite map_app. f_equal. induction (f_blocks f) as [|[p body] r IH]; [reflexivity|]. cbn [map flat_map fst snd]. rewrite IH.
  rewrite <- !app_comm_cons. cbn [map]. rewrite map_app. reflexivity.
Qed.
Lemma tl_implied (imp : option (pat L)) : map tl (implied (L:=L) imp) = implied (L:=tame) imp.
Proof. now destruct imp. Qed.
Lemma tl_implicit (imp : option (pat L)) ls : map tl (with_implicit (L:=L) imp ls) = with_implicit (L:=tame) imp (map tl ls).
Proof.
  unfold with_implicit. rewrite map_app, tl_implied. f_equal. induction ls as [|l ls IH]; [reflexivity|]. cbn [flat_map map app]. rewrite map_app, IH. f_equal. f_equal.
  change (l_kind (tl l)) with (l_kind l). destruct (l_kind l); try apply tl_implied. reflexivity.
Qed.
Lemma tl_head ls : head_kind (map tl ls) = head_kind ls.
Proof. now destruct ls. Qed.
Lemma tl_touchy ls : touchy (map tl ls) <-> touchy ls.
Proof. unfold touchy. now rewrite tl_head. Qed.

Section At.
Context (b : bytes).
Lemma found_inside (p : pat L) s e en i en' : own = false -> found (L:=tame) b p s e en i en' -> s <= e <= length b.
Proof.
  intros O (m & E & T & I). cbn [pm tame] in E. unfold tame_pm in E. destruct (insideb b (mkRange s e)) eqn:In; [now apply insideb_spec in In|]. rewrite O in E. injection E as <- <-. discriminate.
Qed.
Lemma absent_inside (ps : list (pat L)) s e en : own = false -> ps <> [] -> absent (L:=tame) b ps s e en -> s <= e <= length b.
Proof.
  intros O N [H|(m & en' & E & H)]; [now elim N|]. cbn [nm tame] in E. unfold tame_nm in E. destruct (insideb b (mkRange s e)) eqn:In; [now apply insideb_spec in In|]. rewrite O in E. injection E as <- <-. discriminate.
Qed.
Lemma dag_inside (ds : list (pat L)) s e en ms en' pos : own = false -> dm (l:=tame) ds b (mkRange s e) en = Val (ms, en', pos) -> ms_ok ms = true -> s <= e <= length b.
Proof.
  intros O E H. cbn [dm tame] in E. unfold tame_dm in E. destruct (insideb b (mkRange s e)) eqn:In; [now apply insideb_spec in In|]. rewrite O in E. injection E as <- <- <-. discriminate.
Qed.
Section Own.
Context (Own : own = true).
Lemma found_in (p : pat L) s e en i en' : proper (L:=L) p -> found (L:=L) b p s e en i en' -> found (L:=tame) b p s e en i en'.
Proof.
  intros P (m & E & T & I). exists m. splits; auto. cbn [pm tame]. destruct (insideb b (mkRange s e)) eqn:In; [|unfold tame_pm; now rewrite In, Own].
  apply tame_pm_good; auto. apply insideb_spec in In. destruct (P _ _ _ _ _ _ In E) as [G|(er & F & _)]; [exact G|congruence].
Qed.
Lemma found_out (p : pat L) s e en i en' : found (L:=tame) b p s e en i en' -> found (L:=L) b p s e en i en'.
Proof. intros (m & E & T & I). exists m. splits; auto. apply (tame_pm_ok p b _ _ _ _ E). now left. Qed.
Lemma absent_iff (ps : list (pat L)) s e en : (ps <> [] -> steady (L:=L) ps) -> absent (L:=L) b ps s e en <-> absent (L:=tame) b ps s e en.
Proof.
  intros S. unfold absent. destruct ps as [|p ps]; [split; intros _; now left|]. destruct (S ltac:(discriminate)) as [S1 S2].
  assert (E : (exists m en', nm (l:=L) (p :: ps) b (mkRange s e) en = Val (m, en') /\ m_is_ok m = false) <-> (exists m en', tame_nm (p :: ps) b (mkRange s e) en = Val (m, en') /\ m_is_ok m = false)).
  { unfold tame_nm. destruct (insideb b (mkRange s e)) eqn:In; [|rewrite Own; tauto]. apply insideb_spec in In. destruct (S1 b s e e0 In) as (m0 & E0 & _). destruct (S1 b s e en In) as (m1 & E1 & _).
    rewrite E0, E1. pose proof (S2 _ _ _ _ _ _ _ In E0 E1) as Q. split.
    - intros (m & en' & [= <- <-] & O). rewrite Q, O. cbn [andb]. exists m0, en. split; [reflexivity|congruence].
    - intros (m & en' & G & O). exists m1, en. split; [reflexivity|]. destruct (_ && _)%bool in G; injection G as <- <-; [discriminate|congruence]. }
  split; (intros [N|H]; [discriminate|right; now apply E]).
Qed.
Lemma fires_in be k (p : pat L) pos en is en' : (searches k = true -> proper (L:=L) p) -> fires (L:=L) b be k p pos en is en' -> fires (L:=tame) b be k p pos en is en'.
Proof.
  intros P F. revert P. induction F; intros P; econstructor; eauto; apply found_in; auto.
Qed.
Lemma fires_out be k (p : pat L) pos en is en' : fires (L:=tame) b be k p pos en is en' -> fires (L:=L) b be k p pos en is en'.
Proof. induction 1; econstructor; eauto; apply found_out; eauto. Qed.
Definition pend (nots : list (pat L)) (ls : list (line L)) : list (line L) := map (mkLine (L:=L) KNot) nots ++ ls.
Lemma pend_not p nots ls : pend (nots ++ [p]) ls = pend nots (mkLine KNot p :: ls).
Proof. unfold pend. rewrite map_app, <- app_assoc. reflexivity. Qed.
Lemma pend_steady nots ls : runs KNot steady (pend nots ls) -> nots <> [] -> steady (L:=L) nots.
Proof.
  intros R N. specialize (R [] (map (mkLine (L:=L) KNot) nots) ls eq_refl). rewrite map_map in R. cbn [l_pat] in R. rewrite map_id in R. apply R; [|now destruct nots].
  apply Forall_forall. intros x I. apply in_map_iff in I as (p & <- & _). reflexivity.
Qed.
Definition sane_rest (nots : list (pat L)) (ls : list (line L)) : Prop :=
  (forall l, In l ls -> searches (l_kind l) = true -> proper (l_pat l)) /\ runs KNot steady (pend nots ls) /\ runs KDag orderly ls.
Lemma sane_next nots l ls : sane_rest nots (l :: ls) -> sane_rest [] ls.
Proof. intros (A & B & C). unfold sane_rest. splits; [intros x I; apply A; now right|apply (runs_suffix _ _ (pend nots [l])); unfold pend; rewrite <- app_assoc; exact B|apply (runs_suffix _ _ [l]); exact C]. Qed.
Lemma sane_more nots p ls : sane_rest nots (mkLine KNot p :: ls) -> sane_rest (nots ++ [p]) ls.
Proof. intros (A & B & C). unfold sane_rest. splits; [intros x I; apply A; now right|rewrite pend_not; exact B|apply (runs_suffix _ _ [mkLine KNot p]); exact C]. Qed.
Lemma sane_dag nots ds ls : sane_rest nots (map (mkLine KDag) ds ++ ls) -> ds <> [] -> orderly ds /\ sane_rest [] ls.
Proof.
  intros (A & B & C) N. split.
  - specialize (C [] (map (mkLine (L:=L) KDag) ds) ls eq_refl). rewrite map_map in C. cbn [l_pat] in C. rewrite map_id in C. apply C; [|now destruct ds].
    apply Forall_forall. intros x I. apply in_map_iff in I as (p & <- & _). reflexivity.
  - unfold sane_rest. splits; [intros l I; apply A; apply in_app_iff; now right| |].
    + apply (runs_suffix _ _ (pend nots (map (mkLine KDag) ds))). unfold pend in *. rewrite <- app_assoc. exact B.
    + eapply runs_suffix; exact C.
Qed.
Lemma tl_dags ds : map tl (map (mkLine (L:=L) KDag) ds) = map (mkLine (L:=tame) KDag) ds.
Proof. rewrite map_map. reflexivity. Qed.
Lemma accepts_in be ls nots strict pos en out en' : accepts (L:=L) b be ls nots strict pos en out en' -> sane_rest nots ls ->
  accepts (L:=tame) b be (map tl ls) nots strict pos en out en'.
Proof.
  induction 1 as [nots strict pos en A|p ls nots strict pos en out en' A IH|k p ls nots strict pos en is en1 out en' F A St Ac IH|ds ls nots strict pos en ms en1 stop out en' N H D O A touch T Ac IH]; intros S.
  - apply (A_end (L:=tame)). apply absent_iff; auto. apply (pend_steady nots []), S.
  - apply (A_not (L:=tame) b be p (map tl ls)). now apply IH, sane_more.
  - apply (A_pos (L:=tame) b be k p (map tl ls) nots strict pos en is en1 out en'); auto.
    + apply fires_in; auto. intros K. exact (proj1 S _ (or_introl eq_refl) K).
    + apply absent_iff; auto. eapply pend_steady, S.
    + apply IH. eapply sane_next; exact S.
  - rewrite map_app, tl_dags. destruct (sane_dag _ _ _ S N) as [Or Sr].
    apply (A_dag (L:=tame) b be ds (map tl ls) nots strict pos en ms en1 stop out en') with (touch := touch); auto.
    + now rewrite tl_head.
    + cbn [dm tame]. unfold tame_dm. destruct (insideb b (mkRange pos be)) eqn:In; [|rewrite Own; exact D]. rewrite D. apply insideb_spec in In.
      assert (X : dagb (mkRange pos be) ms stop = true) by (apply dagb_spec; exact (Or _ _ _ _ _ _ _ In D O)). now rewrite X, Bool.orb_true_r.
    + apply absent_iff; auto. eapply pend_steady, S.
    + now rewrite tl_touchy.
Qed.
Lemma accepts_out be ls' nots strict pos en out en' : accepts (L:=tame) b be ls' nots strict pos en out en' -> forall ls, ls' = map tl ls -> sane_rest nots ls ->
  accepts (L:=L) b be ls nots strict pos en out en'.
Proof.
  induction 1 as [nots strict pos en A|p ls' nots strict pos en out en' A IH|k p ls' nots strict pos en is en1 out en' F A St Ac IH|ds ls' nots strict pos en ms en1 stop out en' N H D O A touch T Ac IH]; intros ls Els S.
  - symmetry in Els. apply map_eq_nil in Els as ->. apply (A_end (L:=L)). apply absent_iff; auto. apply (pend_steady nots []), S.
  - destruct ls as [|l ls]; [discriminate|]. injection Els as K P E. destruct l as [k0 p0]. cbn [l_kind l_pat] in K, P. subst k0 p0 ls'.
    apply (A_not (L:=L) b be p ls). apply IH; auto. now apply sane_more.
  - destruct ls as [|l ls]; [discriminate|]. injection Els as K P E. destruct l as [k0 p0]. cbn [l_kind l_pat] in K, P. subst k0 p0 ls'.
    apply (A_pos (L:=L) b be k p ls nots strict pos en is en1 out en'); auto.
    + now apply fires_out.
    + apply absent_iff; auto. eapply pend_steady, S.
    + apply IH; auto. eapply sane_next; exact S.
  - symmetry in Els. apply map_eq_app in Els as (l1 & l2 & -> & E1 & E2). assert (l1 = map (mkLine (L:=L) KDag) ds).
    { clear -E1. revert ds E1. induction l1 as [|[k p] l1 IH]; intros [|d ds] E1; cbn [map] in *; try discriminate; [reflexivity|]. injection E1 as K P E1. cbn [l_kind l_pat] in K, P. subst. f_equal. now apply IH. }
    subst l1 ls'. destruct (sane_dag _ _ _ S N) as [Or Sr].
    apply (A_dag (L:=L) b be ds l2 nots strict pos en ms en1 stop out en') with (touch := touch); auto.
    + now rewrite <- tl_head.
    + now apply tame_dm_ok.
    + apply absent_iff; auto. eapply pend_steady, S.
    + now rewrite <- tl_touchy.
Qed.
Lemma accepts_iff be ls pos en out en' : sane_part ls -> accepts (L:=L) b be ls [] false pos en out en' <-> accepts (L:=tame) b be (map tl ls) [] false pos en out en'.
Proof. intros S. assert (S' : sane_rest [] ls) by exact S. split; [intros H; now apply accepts_in|intros H; eapply accepts_out; eauto]. Qed.
Lemma labels_iff en ps : Forall (proper (L:=L)) ps -> forall from is, labels_at (L:=L) b en from ps is <-> labels_at (L:=tame) b en from ps is.
Proof.
  intros P from is. split; intros H; revert P; induction H as [|from p ps i is en' s F Le H IH]; intros P.
  - exact (La_nil (L:=tame) b en from).
  - inversion P; subst. exact (La_cons (L:=tame) b en from p ps i is en' s (found_in p _ _ _ _ _ ltac:(assumption) F) Le (IH ltac:(assumption))).
  - exact (La_nil (L:=L) b en from).
  - inversion P; subst. exact (La_cons (L:=L) b en from p ps i is en' s (found_out p _ _ _ _ _ F) Le (IH ltac:(assumption))).
Qed.
Lemma parts_in start body rest is en out en' : parts_hold (L:=L) b start body rest is en out en' -> sane_part body -> Forall sane_part rest ->
  parts_hold (L:=tame) b start (map tl body) (map (map tl) rest) is en out en'.
Proof.
  induction 1 as [start body en out en' A|start body en out en1 e i next s rest is out' en' Lf A Le H IH]; intros S F.
  - constructor. now apply accepts_iff.
  - cbn [map]. inversion F; subst. apply (Ph_more (L:=tame)) with en1 e s; auto. now apply accepts_iff.
Qed.
Lemma parts_out start body' rest' is en out en' : parts_hold (L:=tame) b start body' rest' is en out en' -> forall body rest, body' = map tl body -> rest' = map (map tl) rest -> sane_part body -> Forall sane_part rest ->
  parts_hold (L:=L) b start body rest is en out en'.
Proof.
  induction 1 as [start body' en out en' A|start body' en out en1 e i next' s rest' is out' en' Lf A Le H IH]; intros body rest -> Er S F.
  - symmetry in Er. apply map_eq_nil in Er as ->. constructor. now apply accepts_iff.
  - destruct rest as [|next rest]; [discriminate|]. injection Er as -> ->. inversion F; subst. apply (Ph_more (L:=L)) with en1 e s; auto. now apply accepts_iff.
Qed.
Lemma parts_iff_tame start body rest is en out en' : sane_part body -> Forall sane_part rest ->
  parts_hold (L:=L) b start body rest is en out en' <-> parts_hold (L:=tame) b start (map tl body) (map (map tl) rest) is en out en'.
Proof. intros S F. split; [intros H; now apply parts_in|intros H; eapply parts_out; eauto]. Qed.
Lemma holds_iff (imp : option (pat L)) f en out : sane imp f -> file_holds (L:=L) b imp f en out <-> file_holds (L:=tame) b imp (tf f) en out.
Proof.
  intros [Sp Sb]. unfold file_holds, tf. cbn [f_prefix f_blocks]. rewrite <- tl_implicit.
  replace (@map (pat tame * list (line tame)) (pat tame) fst (map (fun bl => (fst bl, map tl (snd bl))) (f_blocks f))) with (map fst (f_blocks f)) by (rewrite map_map; apply List.map_ext; reflexivity).
  replace (map (fun bl : pat tame * list (line tame) => implied (L:=tame) imp ++ snd bl) (map (fun bl => (fst bl, map tl (snd bl))) (f_blocks f)))
    with (map (map tl) (map (fun bl => implied (L:=L) imp ++ snd bl) (f_blocks f))).
  2:{ rewrite !map_map. apply List.map_ext. intros [p body]. cbn [fst snd]. rewrite map_app, tl_implied. reflexivity. }
  assert (P : Forall (proper (L:=L)) (map fst (f_blocks f))). { apply Forall_forall. intros p I. apply in_map_iff in I as (bl & <- & I). now apply Sb. }
  assert (Bs : Forall sane_part (map (fun bl => implied (L:=L) imp ++ snd bl) (f_blocks f))). { apply Forall_forall. intros p I. apply in_map_iff in I as (bl & <- & I). now apply Sb. }
  cbn zeta. set (bodies := map (fun bl => implied (L:=L) imp ++ snd bl) (f_blocks f)) in *.
  split; intros (is & en' & La & H); exists is, en'; (split; [eapply labels_iff; eauto|]).
  - destruct (with_implicit (L:=L) imp (f_prefix f)) as [|w ws] eqn:W; [destruct bodies as [|first rest], is as [|i is']; cbn [map] in *|].
    + eapply (proj1 (parts_iff_tame _ [] [] _ _ _ _ Sp ltac:(constructor))); exact H.
    + eapply (proj1 (parts_iff_tame _ [] [] _ _ _ _ Sp ltac:(constructor))); exact H.
    + eapply (proj1 (parts_iff_tame _ [] (first :: rest) _ _ _ _ Sp Bs)); exact H.
    + destruct H as (s & out' & A & B & H). exists s, out'. splits; auto. inversion Bs; subst. now apply parts_iff_tame.
    + eapply (proj1 (parts_iff_tame _ (w :: ws) bodies _ _ _ _ Sp Bs)); exact H.
  - destruct (with_implicit (L:=L) imp (f_prefix f)) as [|w ws] eqn:W; [destruct bodies as [|first rest], is as [|i is']; cbn [map] in *|].
    + eapply (proj2 (parts_iff_tame _ [] [] _ _ _ _ Sp ltac:(constructor))); exact H.
    + eapply (proj2 (parts_iff_tame _ [] [] _ _ _ _ Sp ltac:(constructor))); exact H.
    + eapply (proj2 (parts_iff_tame _ [] (first :: rest) _ _ _ _ Sp Bs)); exact H.
    + destruct H as (s & out' & A & B & H). exists s, out'. splits; auto. inversion Bs; subst. now apply parts_iff_tame.
    + eapply (proj2 (parts_iff_tame _ (w :: ws) bodies _ _ _ _ Sp Bs)); exact H.
Qed.
End Own.
End At.

(** ** Compiling and running *)
Definition RK1 (k : kind) (p : pat L) (p' : pat tame) : Prop :=
  p' = p /\ (searches k = true -> proper (L:=L) p) /\ (k = KLabel -> proper (L:=L) p /\ solid (L:=L) p).
Definition RK2 (k : kind) (p : pat tame) (p' : pat L) : Prop := p' = p.
Lemma lines_in ls : (forall l, In l ls -> (searches (l_kind l) = true -> proper (L:=L) (l_pat l)) /\ (l_kind l = KLabel -> proper (L:=L) (l_pat l) /\ solid (L:=L) (l_pat l))) ->
  Forall2 (line_like (L:=L) (L':=tame) RK1) ls (map tl ls).
Proof.
  induction ls as [|[k p] ls IH]; intros H; cbn [map]; constructor.
  - unfold tl. cbn [l_kind l_pat]. constructor. destruct (H _ (or_introl eq_refl)) as [A B]. cbn [l_kind l_pat] in *. unfold RK1. auto.
  - apply IH. intros l I. apply H. now right.
Qed.
Lemma lines_out ls : Forall2 (line_like (L:=tame) (L':=L) RK2) (map tl ls) ls.
Proof. induction ls as [|[k p] ls IH]; cbn [map]; constructor; auto. unfold tl. cbn [l_kind l_pat]. constructor. reflexivity. Qed.
Lemma runs_tl k (Q : list (pat L) -> Prop) ls : runs (L:=L) k Q ls -> runs (L:=tame) k Q (map tl ls).
Proof.
  intros R pre run post E F N. apply map_eq_app in E as (l1 & l2 & -> & <- & E). apply map_eq_app in E as (l3 & l4 & -> & <- & <-).
  assert (X : map l_pat (map tl l3) = map (l_pat (L:=L)) l3) by (rewrite map_map; reflexivity). rewrite X. apply (R l1 l3 l4); auto.
  - clear -F. induction l3; constructor; inversion F; subst; auto.
  - intros ->. now apply N.
Qed.
Lemma Forall2_same {A} (R : A -> A -> Prop) ps ps' : (forall x y, R x y -> y = x) -> Forall2 R ps ps' -> ps' = ps.
Proof. intros H. induction 1 as [|x y ps ps' E F IH]; [reflexivity|]. apply H in E as ->. now rewrite IH. Qed.
Lemma tf_ok f : file_ok (L:=L) f -> file_ok (L:=tame) (tf f).
Proof.
  intros (A & B & C). unfold file_ok. splits.
  - intros l I. cbn [tf f_prefix] in I. apply in_map_iff in I as (x & <- & I). cbn. now apply A.
  - intros bl I l J. cbn [tf f_blocks] in I. apply in_map_iff in I as (x & <- & I). cbn [snd] in J. apply in_map_iff in J as (y & <- & J). cbn. eapply B; eauto.
  - intros l I. rewrite tf_lines in I. apply in_map_iff in I as (x & <- & I). cbn. now apply C.
Qed.
Lemma in_implicit (imp : option (pat L)) l ls : In l ls -> In l (with_implicit (L:=L) imp ls).
Proof. intros I. unfold with_implicit. apply in_app_iff. right. apply in_flat_map. exists l. split; [exact I|now left]. Qed.
Lemma sane_lines (imp : option (pat L)) f : file_ok (L:=L) f -> sane imp f ->
  forall l, In l (file_lines f) -> (searches (l_kind l) = true -> proper (L:=L) (l_pat l)) /\ (l_kind l = KLabel -> proper (L:=L) (l_pat l) /\ solid (L:=L) (l_pat l)).
Proof.
  intros (A & B & _) [Sp Sb] l I. unfold file_lines in I. apply in_app_iff in I as [I|I].
  - split; [intros K; apply Sp; auto; now apply in_implicit|]. intros K. now elim (A l I).
  - apply in_flat_map in I as (bl & I & [<-|J]).
    + split; [discriminate|]. intros _. cbn [l_pat]. split; now apply Sb.
    + split; [|intros K; now elim (B bl I l J)]. intros K. apply (proj2 (proj2 (Sb bl I))); auto. apply in_app_iff. now right.
Qed.
Lemma sane_fit (imp : option (pat L)) f bs : file_ok (L:=L) f -> sane imp f -> compile_lines imp (file_lines f) None (implicit_line imp) [] = Val bs ->
  Forall (fun x => runs (L:=L) KNot steady (snd x) /\ runs (L:=L) KDag orderly (snd x)) bs.
Proof.
  intros Ok [Sp Sb]. rewrite (compile_lines_file imp f Ok). destruct (anchoredb _ _); [|discriminate]. intros [= <-]. unfold the_blocks. apply Forall_app. split.
  - destruct (with_implicit imp (f_prefix f)) as [|w ws] eqn:W; [constructor|]. constructor; [|constructor]. exact (proj2 Sp).
  - apply Forall_forall. intros x I. apply in_map_iff in I as (bl & <- & I). cbn [lab_block snd]. exact (proj2 (proj2 (proj2 (Sb bl I)))).
Qed.
Lemma sane_fit_tl (imp : option (pat L)) f bs : file_ok (L:=L) f -> sane imp f -> compile_lines (L:=tame) imp (file_lines (tf f)) None (implicit_line (L:=tame) imp) [] = Val bs ->
  Forall (fun x => runs (L:=tame) KNot (steady (L:=L)) (snd x) /\ runs (L:=tame) KDag (fun _ => True) (snd x)) bs.
Proof.
  intros Ok [Sp Sb]. rewrite (compile_lines_file (L:=tame) imp (tf f) (tf_ok f Ok)). destruct (anchoredb _ _); [|discriminate]. intros [= <-]. unfold the_blocks. cbn [tf f_prefix f_blocks].
  rewrite <- tl_implicit. apply Forall_app. split.
  - destruct (with_implicit (L:=L) imp (f_prefix f)) as [|w ws] eqn:W; [constructor|]. cbn [map]. constructor; [|constructor]. cbn [snd].
    split; [|now intros ? ? ? ? ? ?]. apply (runs_tl KNot steady (w :: ws)). apply Sp.
  - apply Forall_forall. intros x I. apply in_map_iff in I as (bl' & <- & I). apply in_map_iff in I as (bl & <- & I). cbn [lab_block snd fst]. split; [|now intros ? ? ? ? ? ?].
    change (implicit_line (L:=tame) imp) with (implied (L:=tame) imp). rewrite <- tl_implied, <- map_app. apply runs_tl. now apply Sb.
Qed.
Lemma run_in allow (imp : option (pat L)) f b t : file_ok (L:=L) f -> sane imp f -> filecheck (L:=L) allow imp (file_lines f) b e0 = Val t -> t_errors t = [] ->
  filecheck (L:=tame) allow imp (file_lines (tf f)) b e0 = Val t.
Proof.
  intros Ok Sa. unfold filecheck. rewrite tf_lines.
  assert (C : like (Forall2 (section_like (L:=L) (L':=tame) (pat_le (L:=L) (L':=tame) eq) (label_le (L:=L) (L':=tame) eq) (nots_le (L:=L) (L':=tame) eq) (dags_le (L:=L) (L':=tame) eq)))
    (compile (L:=L) imp (file_lines f)) (compile (L:=tame) imp (map tl (file_lines f)))).
  { apply (compile_sim_implicit (L:=L) (L':=tame) _ _ _ _ RK1) with (QN := steady (L:=L)) (QD := orderly (L:=L)).
    - intros k p p' K (-> & P & _). apply proper_le. apply P. now destruct k.
    - intros p p' (-> & _ & P). destruct (P eq_refl). now apply label_le_in.
    - intros ps ps' _ S0 F. assert (ps' = ps) as -> by (eapply (Forall2_same (A:=pat L)); [|exact F]; now intros x y [? _]). now apply steady_le.
    - intros ps ps' _ S0 F. assert (ps' = ps) as -> by (eapply (Forall2_same (A:=pat L)); [|exact F]; now intros x y [? _]). now apply orderly_le.
    - destruct imp as [p|]; [|exact (il_none (L:=L) (L':=tame) RK1)]. refine (il_some (L:=L) (L':=tame) RK1 p p _). unfold RK1. splits; [reflexivity|discriminate|discriminate].
    - apply lines_in. eapply sane_lines; eauto.
    - intros bs E. exact (sane_fit imp f bs Ok Sa E). }
  destruct C as [secs secs' F| |]; cbn [bind]; intros R N; [|discriminate R..].
  eapply (check_input_le (L:=L) (L':=tame) eq); [intros e e' ->; reflexivity|exact F|reflexivity|exact R|exact N].
Qed.
Lemma run_out allow (imp : option (pat L)) f b t : file_ok (L:=L) f -> sane imp f -> filecheck (L:=tame) allow imp (file_lines (tf f)) b e0 = Val t -> t_errors t = [] ->
  filecheck (L:=L) allow imp (file_lines f) b e0 = Val t.
Proof.
  intros Ok Sa. unfold filecheck.
  assert (C : like (Forall2 (section_like (L:=tame) (L':=L) (pat_le (L:=tame) (L':=L) eq) (label_le (L:=tame) (L':=L) eq) (nots_le (L:=tame) (L':=L) eq) (dags_le (L:=tame) (L':=L) eq)))
    (compile (L:=tame) imp (file_lines (tf f))) (compile (L:=L) imp (file_lines f))).
  { apply (compile_sim_implicit (L:=tame) (L':=L) _ _ _ _ RK2) with (QN := steady (L:=L)) (QD := fun _ => True).
    - intros k p p' K ->. apply back_pat.
    - intros p p' ->. apply back_label.
    - intros ps ps' _ S0 F. assert (ps' = ps) as -> by (eapply (Forall2_same (A:=pat L)); [|exact F]; now intros x y ?). now apply back_nots.
    - intros ps ps' _ S0 F. assert (ps' = ps) as -> by (eapply (Forall2_same (A:=pat L)); [|exact F]; now intros x y ?). now apply back_dags.
    - destruct imp as [p|]; [exact (il_some (L:=tame) (L':=L) RK2 p p eq_refl)|exact (il_none (L:=tame) (L':=L) RK2)].
    - rewrite tf_lines. apply lines_out.
    - intros bs E. exact (sane_fit_tl imp f bs Ok Sa E). }
  destruct C as [secs secs' F| |]; cbn [bind]; intros R N; [|discriminate R..].
  eapply (check_input_le (L:=tame) (L':=L) eq); [intros e e' ->; reflexivity|exact F|reflexivity|exact R|exact N].
Qed.
End Tame.

(** A sane file passes exactly when the directives hold in the tamed language. *)
Theorem tame_pass (L : lang) own allow imp (f : file L) b e : lf_input b \/ f_blocks f = [] /\ line_free (f_prefix f) -> file_ok f -> sane imp f -> room b imp f e ->
  b <> [] \/ allow = true -> file_lines f <> [] \/ imp <> None -> anchored (f_prefix f) ->
  forall out, file_holds (L:=tame L e own) b imp (tf L e own f) e out <-> exists t, filecheck allow imp (file_lines f) b e = Val t /\ t_errors t = [] /\ t_matches t = out.
Proof.
  intros A1 Ok Sa Rm A5 A6 An out. set (T := tame L e own).
  assert (C : file_holds (L:=T) b imp (tf L e own f) e out <-> exists t, filecheck (L:=T) allow imp (file_lines (tf L e own f)) b e = Val t /\ t_errors t = [] /\ t_matches t = out).
  { apply (C22_pass_iff_holds_partial (L:=T) (tame_ok L e own)).
    - destruct A1 as [A1|[A1 A2]]; [now left|right]. cbn [tf f_blocks f_prefix]. rewrite A1. split; [reflexivity|]. intros l I. apply in_map_iff in I as (x & <- & I). cbn. now apply A2.
    - now apply tf_ok.
    - intros p I. cbn [tf f_blocks] in I. rewrite map_map in I. apply in_map_iff in I as (bl & <- & I). cbn [fst]. destruct (proj2 Sa bl I) as (_ & So & _).
      intros b0 s t en m en' In E. destruct (m_info m) as [i|] eqn:Im.
      + assert (Ni : m_info m <> None) by congruence. pose proof (tame_pm_ok L own (fst bl) b0 _ _ _ _ E (or_intror Ni)) as E'. rewrite <- Im. exact (So _ _ _ _ _ _ In E').
      + split; [reflexivity|discriminate].
    - destruct Rm as [Rm|Rm]; [left|right].
      + pose proof (tl_implicit L e own imp (f_prefix f)) as X. rewrite Rm in X. symmetry. exact X.
      + intros p Hp i en' F. cbn [tf f_blocks] in Hp. rewrite map_map in Hp. apply (Rm p Hp i en'). eapply found_out; exact F.
    - exact A5.
    - destruct A6 as [A6|A6]; [left|now right]. intros X. apply A6. pose proof (tf_lines L e own f) as Y. unfold T in X. rewrite X in Y. symmetry in Y. now apply map_eq_nil in Y.
    - intros pre l post E R. cbn [tf f_prefix] in E. apply map_eq_app in E as (l1 & l2 & E & <- & E2). destruct l2 as [|x l2]; [discriminate|]. injection E2 as <- _.
      destruct (An l1 x l2 E R) as (y & I & P). exists (tl L e own y). split; [now apply in_map|exact P]. }
  split.
  - intros X. apply (proj1 C) in X as (t & R & N & M). exists t. splits; auto. eapply run_out; eauto.
  - intros (t & R & N & M). apply (proj2 C). exists t. splits; auto. now apply run_in.
Qed.
(** C22 for sane files: such a file passes exactly when every directive of it holds. *)
Theorem sane_pass (L : lang) allow imp (f : file L) b e : lf_input b \/ f_blocks f = [] /\ line_free (f_prefix f) -> file_ok f -> sane imp f -> room b imp f e ->
  b <> [] \/ allow = true -> file_lines f <> [] \/ imp <> None -> anchored (f_prefix f) ->
  forall out, file_holds b imp f e out <-> exists t, filecheck allow imp (file_lines f) b e = Val t /\ t_errors t = [] /\ t_matches t = out.
Proof.
  intros A1 Ok Sa Rm A5 A6 An out. rewrite <- (tame_pass L true allow imp f b e) by auto. now apply (holds_iff L e true b eq_refl imp f e out).
Qed.
Print Assumptions sane_pass.
