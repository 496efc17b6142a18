(** Taking [accepts] apart at a directive. *)
From Verif Require Import Base Text_Model Text_Spec Text_Proofs Cursor_Model Cursor_Spec Cursor_Proofs
  Check_Model Program_Model Check_Spec Check_Proofs Program_Proofs Accept_Proofs.

Section Compose.
Context {L : lang}.
Variables (b : bytes) (E : nat).

(** The list does not end with CHECK-NOT or CHECK-DAG. *)
Definition settled (ls : list (line L)) : Prop :=
  forall pre l, ls = pre ++ [l] -> l_kind l <> KNot /\ l_kind l <> KDag.
Lemma settled_tail x ls : settled (x :: ls) -> settled ls.
Proof. intros H pre l E0. apply (H (x :: pre) l). rewrite E0. reflexivity. Qed.
Lemma settled_app_r a c : settled (a ++ c) -> settled c.
Proof. intros H pre l E0. apply (H (a ++ pre) l). rewrite E0. now rewrite app_assoc. Qed.

Lemma map_app_split ds (ls1 ls2 rest : list (line L)) : settled ls1 -> ls1 <> [] ->
  map (mkLine KDag) ds ++ rest = ls1 ++ ls2 -> exists ls1', ls1 = map (mkLine KDag) ds ++ ls1' /\ rest = ls1' ++ ls2 /\ ls1' <> [].
Proof.
  revert ls1. induction ds as [|d ds IH]; intros ls1 S N E0.
  - exists ls1. auto.
  - destruct ls1 as [|x ls1]; [congruence|]. simpl in E0. injection E0 as <- E0.
    destruct ls1 as [|y ls1].
    + exfalso. destruct (S [] (mkLine KDag d) eq_refl). simpl in *. congruence.
    + destruct (IH (y :: ls1)) as (ls1' & E1 & E2 & E3); [eapply settled_tail; eauto|discriminate|auto|].
      exists ls1'. rewrite E1. simpl. splits; auto.
Qed.

Lemma head_kind_app (a c : list (line L)) : a <> [] -> head_kind (a ++ c) = head_kind a.
Proof. destruct a; [congruence|reflexivity]. Qed.
Lemma touchy_app (a c : list (line L)) : a <> [] -> touchy (a ++ c) <-> touchy a.
Proof. intros H. unfold touchy. now rewrite head_kind_app. Qed.

Lemma accepts_split ls : forall nots strict pos en out en', accepts (L:=L) b E ls nots strict pos en out en' ->
  forall ls1 ls2, ls = ls1 ++ ls2 -> settled ls1 -> ls1 <> [] ->
  exists out1 en1 out2, accepts b E ls1 nots strict pos en out1 en1 /\
    accepts b E ls2 [] false (last_end pos out1) en1 out2 en' /\ out = out1 ++ out2.
Proof.
  intros nots strict pos en out en' H.
  induction H as [nots strict pos en A|p ls nots strict pos en out en' H IH
                 |k p ls nots strict pos en is en1 out en' F A G H IH
                 |ds ls nots strict pos en ms en1 stop out en' D1 D2 D3 D4 A touch TC H IH]; intros ls1 ls2 E0 S N.
  - destruct ls1; [congruence|discriminate].
  - destruct ls1 as [|x ls1]; [congruence|]. simpl in E0. injection E0 as <- E0.
    assert (N1 : ls1 <> []) by (intros ->; destruct (S [] (mkLine KNot p) eq_refl); simpl in *; congruence).
    destruct (IH ls1 ls2 E0 (settled_tail _ _ S) N1) as (o1 & e1 & o2 & X & Y & Z).
    exists o1, e1, o2. splits; auto. constructor; auto.
  - destruct ls1 as [|x ls1]; [congruence|]. simpl in E0. injection E0 as <- E0.
    destruct ls1 as [|y ls1].
    + exists is, en1, out. simpl in E0. subst ls. splits; auto.
      rewrite <- (app_nil_r is). econstructor; eauto. constructor. left. reflexivity.
    + destruct (IH (y :: ls1) ls2 E0 (settled_tail _ _ S)) as (o1 & e1 & o2 & X & Y & Z); [discriminate|].
      exists (is ++ o1), e1, o2. rewrite last_end_app. splits; auto.
      * econstructor; eauto.
      * rewrite Z. now rewrite app_assoc.
  - destruct (map_app_split _ _ _ _ S N E0) as (ls1' & E1 & E2 & E3).
    rewrite E1 in S. destruct (IH ls1' ls2 E2 (settled_app_r _ _ S) E3) as (o1 & e1 & o2 & X & Y & Z).
    exists (infos ms ++ o1), e1, o2. rewrite last_end_app. splits; auto.
    + rewrite E1. eapply A_dag; eauto.
      * rewrite E2, head_kind_app in D2; auto.
      * rewrite E2, touchy_app in TC; auto.
    + rewrite Z. now rewrite app_assoc.
Qed.
Lemma accepts_join ls1 : forall nots strict pos en out1 en1, accepts (L:=L) b E ls1 nots strict pos en out1 en1 ->
  forall ls2 out2 en2, settled ls1 -> ls1 <> [] -> accepts b E ls2 [] false (last_end pos out1) en1 out2 en2 ->
  accepts b E (ls1 ++ ls2) nots strict pos en (out1 ++ out2) en2.
Proof.
  intros nots strict pos en out1 en1 H.
  induction H as [nots strict pos en A|p ls nots strict pos en out en' H IH
                 |k p ls nots strict pos en is en1 out en' F A G H IH
                 |ds ls nots strict pos en ms en1 stop out en' D1 D2 D3 D4 A touch TC H IH]; intros ls2 out2 en2 S N H2.
  - congruence.
  - simpl. constructor. apply IH; auto; [eapply settled_tail; eauto|].
    intros ->. destruct (S [] (mkLine KNot p) eq_refl); simpl in *; congruence.
  - rewrite <- app_assoc. simpl. rewrite last_end_app in H2. destruct ls as [|x ls].
    + simpl. econstructor; eauto. inversion H; subst.
      * simpl. auto.
      * destruct ds; [congruence|discriminate].
    + econstructor; eauto. apply IH; auto; [eapply settled_tail; eauto|discriminate].
  - rewrite <- !app_assoc. rewrite last_end_app in H2.
    assert (N1 : ls <> []).
    { intros ->. rewrite app_nil_r in S. destruct (rev ds) as [|d r] eqn:R.
      - apply D1. rewrite <- (rev_involutive ds), R. reflexivity.
      - assert (ds = rev r ++ [d]) by (rewrite <- (rev_involutive ds), R; reflexivity). subst ds.
        rewrite map_app in S. destruct (S _ (mkLine KDag d) eq_refl). simpl in *. congruence. }
    eapply A_dag; eauto.
    + rewrite head_kind_app; auto.
    + rewrite touchy_app; eauto.
    + apply IH; auto. eapply settled_app_r; eauto.
Qed.
Lemma accepts_app ls1 ls2 nots strict pos en out en' : settled ls1 -> ls1 <> [] ->
  accepts (L:=L) b E (ls1 ++ ls2) nots strict pos en out en' <->
  exists out1 en1 out2, accepts b E ls1 nots strict pos en out1 en1 /\
    accepts b E ls2 [] false (last_end pos out1) en1 out2 en' /\ out = out1 ++ out2.
Proof.
  intros S N. split.
  - intros H. eapply accepts_split; eauto.
  - intros (o1 & e1 & o2 & X & Y & ->). eapply accepts_join; eauto.
Qed.

Lemma accepts_one k p pos en out en' : k <> KNot -> k <> KDag ->
  accepts (L:=L) b E [mkLine k p] [] false pos en out en' <-> fires b E k p pos en out en'.
Proof.
  intros K1 K2. split.
  - intros H. inversion H; subst; try congruence.
    + match goal with A : accepts _ _ [] _ _ _ _ _ _ |- _ => inversion A; subst end.
      * now rewrite app_nil_r.
      * destruct ds; [congruence|discriminate].
    + exfalso. destruct ds as [|d ds]; [congruence|]. injection H0. intros. congruence.
  - intros F. rewrite <- (app_nil_r out). econstructor; eauto; [left; reflexivity|discriminate|].
    constructor. left. reflexivity.
Qed.
Lemma accepts_nots ps : forall nots pos en out en',
  accepts (L:=L) b E (map (mkLine KNot) ps) nots false pos en out en' <-> out = [] /\ en' = en /\ absent b (nots ++ ps) pos E en.
Proof.
  induction ps as [|p ps IH]; intros nots pos en out en'; simpl.
  - rewrite app_nil_r. split.
    + intros H. inversion H; subst; auto. destruct ds; [congruence|discriminate].
    + intros (-> & -> & A). constructor. auto.
  - split.
    + intros H. inversion H; subst.
      * match goal with A : accepts _ _ _ (_ ++ _) _ _ _ _ _ |- _ => apply IH in A; rewrite <- app_assoc in A; exact A end.
      * exfalso. match goal with F : fires _ _ _ _ _ _ _ _ |- _ => inversion F end.
      * exfalso. destruct ds; [congruence|discriminate].
    + intros H. constructor. apply IH. now rewrite <- app_assoc.
Qed.
End Compose.
