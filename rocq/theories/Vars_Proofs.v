(** What the iterator yields. *)
From Coq Require Import String Permutation.
From Verif Require Import Base Env_Model Num_Model Gram_Model Parse_Model Regex_Model Smart_Model Vars_Model Vars_Spec.
Open Scope list_scope.
Open Scope nat_scope.
Ltac splits := repeat match goal with |- _ /\ _ => split end.

(** * Expressions *)
Definition total (w : list pexpr) : nat := fold_right (fun e n => nodes e + n) 0 w.
Lemma total_app a b : total (a ++ b) = total a + total b.
Proof. unfold total. induction a as [|x a IH]; cbn [fold_right app]; [reflexivity|]. rewrite IH. lia. Qed.
Lemma visit_all fuel : forall w b, total w < fuel -> Permutation (visit fuel w b) (b ++ flat_map of_expr w).
Proof.
  induction fuel as [|f IH]; intros w b L; [lia|]. destruct w as [|e w]; cbn [visit flat_map]; [now rewrite app_nil_r|].
  destruct e as [n|v|o l r]; cbn [total fold_right nodes] in L; fold (total w) in L; cbn [of_expr app].
  - apply IH. lia.
  - etransitivity; [apply IH; lia|]. now rewrite <- app_assoc.
  - etransitivity; [apply IH; rewrite total_app; cbn; lia|]. rewrite flat_map_app. cbn [flat_map]. rewrite app_nil_r.
    apply Permutation_app_head. etransitivity; [apply Permutation_app_comm|]. reflexivity.
Qed.
Definition in_expr (e : pexpr) : list vname := visit (S (nodes e)) [e] [].
Lemma in_expr_all e : Permutation (in_expr e) (of_expr e).
Proof. unfold in_expr. etransitivity; [apply visit_all; cbn; lia|]. cbn. now rewrite app_nil_r. Qed.

(** * The iterator as a function *)
Definition in_match (m : pmatch) : list vname :=
  match m with
  | MSubst n _ => [n]
  | MNumeric _ c e => match c with Some n => [n] | None => [] end ++ match e with Some e => in_expr e | None => [] end
  end.
Fixpoint collect (l : list kpart) : list vname :=
  match l with
  | [] | KLit _ :: _ | KRegex _ [] :: _ => []
  | KRegex _ cs :: r => map k_name cs ++ collect r
  | KMatch m :: r => in_match m ++ collect r
  end.
Lemma yields_det i l : yields i l -> forall l', yields i l' -> l = l'.
Proof.
  induction 1 as [i S|i v i' l S Y IH|i i' l S Y IH]; intros l' Y'; destruct Y' as [? S'|? ? ? ? S' Y'|? ? ? S' Y']; try congruence.
  - rewrite S in S'. injection S' as <- <-. f_equal. auto.
  - rewrite S in S'. injection S' as <-. auto.
Qed.
Lemma yields_buffer b n l : yields (IParts n) l -> yields (IBuffered b n) (b ++ l).
Proof. intros Y. induction b as [|v b IH]; [eapply Y_again; [reflexivity|exact Y]|eapply Y_yield; [reflexivity|exact IH]]. Qed.
Lemma yields_expr e n l : yields (IParts n) l -> yields (IExpr e n) (in_expr e ++ l).
Proof.
  intros Y. unfold in_expr. destruct (visit (S (nodes e)) [e] []) as [|v b] eqn:V.
  - eapply Y_again; [|exact Y]. unfold iter_round. now rewrite V.
  - eapply Y_yield; [unfold iter_round; now rewrite V|]. now apply yields_buffer.
Qed.
Lemma same_round i j l : iter_round i = iter_round j -> yields j l -> yields i l.
Proof.
  intros E Y. destruct Y as [j S|j v j' l S Y|j j' l S Y]; rewrite <- E in S; [now apply Y_stop|eapply Y_yield; eauto|eapply Y_again; eauto].
Qed.
Lemma yields_collect l : yields (IParts l) (collect l).
Proof.
  induction l as [|q r IH]; [now apply Y_stop|]. destruct q as [s|s [|c cs]|[n re|f [n|] [e|]]]; cbn [collect].
  - now apply Y_stop.
  - now apply Y_stop.
  - eapply Y_yield; [reflexivity|]. now apply yields_buffer.
  - eapply Y_yield; [reflexivity|exact IH].
  - cbn [in_match app]. eapply Y_yield; [reflexivity|]. now apply yields_expr.
  - cbn [in_match app]. eapply Y_yield; [reflexivity|exact IH].
  - cbn [in_match app]. eapply Y_again; [reflexivity|]. now apply yields_expr.
  - cbn [in_match app]. (* the loop goes on within the round *)
    revert IH. apply same_round. reflexivity.
Qed.

Definition pointed (c : kpat) : list vname :=
  match c with KpEmpty | KpLit _ => [] | KpRegex _ cs => map k_name cs | KpParts l => collect l end.
Lemma yields_pointed c : yields (IPattern c) (pointed c).
Proof.
  destruct c as [|s|s cs|l]; cbn [pointed]; try now apply Y_stop.
  - assert (R : forall cs, yields (IRegex cs) (map k_name cs)).
    { induction cs0 as [|c r IH]; [now apply Y_stop|]. eapply Y_yield; [reflexivity|exact IH]. }
    destruct cs as [|c r]; [now apply Y_stop|]. eapply Y_yield; [reflexivity|apply R].
  - eapply Y_again; [reflexivity|]. apply yields_collect.
Qed.

(** * Compaction *)
Definition fixed (q : part) : bool :=
  match q with QMatch (MSubst _ None) | QMatch (MNumeric _ _ (Some _)) => false | _ => true end.
Lemma fixed_computed q : fixed q = false <-> computed q.
Proof. destruct q as [s|s|[n [re|]|f [n|] [e|]]]; cbn; split; intros H; try exact I; try discriminate; try contradiction; reflexivity. Qed.
Definition step1 (p : pending) (q : part) : pending := snd (compact_one ([], p) q).
Fixpoint crun (p : pending) (l : list part) : list kpart :=
  match l with
  | [] => pending_part p
  | q :: r => if fixed q then crun (step1 p q) r
              else pending_part p ++ match q with QMatch m => KMatch m :: crun nothing_pending r | _ => [] end
  end.
Lemma compact_fixed out p q : fixed q = true -> compact_one (out, p) q = (out, step1 p q).
Proof. unfold step1. destruct q as [s|s|[n [re|]|f [n|] [e|]]]; intros H; try discriminate; reflexivity. Qed.
Lemma compact_computed out p q : fixed q = false -> exists m, q = QMatch m /\ compact_one (out, p) q = (out ++ pending_part p ++ [KMatch m], nothing_pending).
Proof. destruct q as [s|s|[n [re|]|f [n|] [e|]]]; intros H; try discriminate; eexists; (split; [reflexivity|reflexivity]). Qed.
Lemma fold_crun l : forall out p, let '(out', p') := fold_left compact_one l (out, p) in out' ++ pending_part p' = out ++ crun p l.
Proof.
  induction l as [|q l IH]; intros out p; cbn [fold_left crun]; [reflexivity|]. destruct (fixed q) eqn:F.
  - rewrite compact_fixed by exact F. apply IH.
  - destruct (compact_computed out p q F) as (m & -> & ->). specialize (IH (out ++ pending_part p ++ [KMatch m]) nothing_pending).
    destruct (fold_left compact_one l _) as [out' p']. rewrite IH. now rewrite <- !app_assoc.
Qed.
(** Without computed parts nothing is taken out of the pending text. *)
Lemma fold_out l : forall out p, fst (fold_left compact_one l (out, p)) = [] -> out = [] /\ forallb fixed l = true.
Proof.
  induction l as [|q l IH]; intros out p; cbn [fold_left forallb]; [auto|]. destruct (fixed q) eqn:F.
  - rewrite compact_fixed by exact F. apply IH.
  - destruct (compact_computed out p q F) as (m & -> & ->). intros H. apply IH in H as [H _]. now destruct out, (pending_part p).
Qed.

(** What is pending stands for the parts gone through since the last computed one. *)
Definition stands (p : pending) (done : list part) : Prop :=
  map k_name (p_caps p) = flat_map mentions done /\ (p_lit p = true -> p_caps p = []) /\ Forall (fun q => fixed q = true) done /\
  (p_text p = [] -> p_caps p = []) /\ (p_text p <> [] -> exists q, In q done /\ has_text q).
Lemma stands_nothing : stands nothing_pending [].
Proof. unfold stands, nothing_pending. cbn. splits; auto. intros H. now destruct H. Qed.
Lemma escape_nil s : escape s = [] -> s = [].
Proof. unfold escape. destruct s as [|c r]; auto. cbn [flat_map]. destruct (Regex_Model.is_meta c); discriminate. Qed.

Lemma as_regex_nil p : as_regex p = [] <-> p_text p = [].
Proof. unfold as_regex. destruct (p_lit p); [|reflexivity]. split; [apply escape_nil|now intros ->]. Qed.
Lemma some_text p (x : str) : as_regex p ++ x <> [] -> p_text p <> [] \/ x <> [].
Proof. intros H. destruct x as [|c r]; [left|right; discriminate]. rewrite app_nil_r in H. intros E. apply H. now apply as_regex_nil. Qed.
Lemma stands_step p done q : stands p done -> fixed q = true -> stands (step1 p q) (done ++ [q]).
Proof.
  intros (C & L & F & T & X) Q. unfold stands. rewrite flat_map_app. cbn [flat_map]. rewrite app_nil_r, <- C.
  assert (FF : Forall (fun q => fixed q = true) (done ++ [q])) by (apply Forall_app; auto).
  assert (OLD : p_text p <> [] -> exists q0, In q0 (done ++ [q]) /\ has_text q0).
  { intros H. destruct (X H) as (q0 & I & Hq). exists q0. split; [apply in_or_app; now left|exact Hq]. }
  assert (NEW : has_text q -> exists q0, In q0 (done ++ [q]) /\ has_text q0).
  { intros H. exists q. split; [apply in_or_app; right; now left|exact H]. }
  assert (M : forall m, has_text (QMatch m)) by (intros m; split; discriminate).
  destruct q as [s|s|[n [re|]|f [n|] [e|]]]; cbn [fixed] in Q; try discriminate; unfold step1; cbn [compact_one snd mentions].
  - rewrite app_nil_r. destruct (p_lit p) eqn:PL; cbn [p_text p_caps p_lit]; splits; auto; try discriminate.
    + intros H. destruct s as [|c r]; [rewrite app_nil_r in H; auto|]. apply NEW. split; discriminate.
    + intros H. apply app_eq_nil in H as [H _]. auto.
    + intros H. destruct s as [|c r]; [cbn in H; rewrite app_nil_r in H; auto|]. apply NEW. split; discriminate.
  - unfold add_regex. cbn [p_text p_caps p_lit]. rewrite !app_nil_r. splits; auto; try discriminate.
    + intros H. apply app_eq_nil in H as [H _]. apply T. now apply as_regex_nil.
    + intros H. apply some_text in H as [H|H]; auto. apply NEW. split; [discriminate|congruence].
  - unfold add_regex. cbn [p_text p_caps p_lit]. rewrite map_app. splits; auto; try discriminate.
    intros H. apply app_eq_nil in H as [_ H]. discriminate.
  - unfold add_regex. cbn [p_text p_caps p_lit]. rewrite map_app. cbn [map k_name app]. splits; auto; try discriminate.
    intros H. apply app_eq_nil in H as [_ H]. discriminate.
  - unfold add_regex. cbn [p_text p_caps p_lit]. rewrite !app_nil_r. splits; auto; try discriminate.
    intros H. apply app_eq_nil in H as [_ H]. discriminate.
Qed.
Lemma in_match_all m : Permutation (in_match m) (mentions (QMatch m)).
Proof. destruct m as [n re|f c [e|]]; cbn; auto. apply Permutation_app_head. apply in_expr_all. Qed.

Lemma mentions_nil l : Forall (fun q => fixed q = true) l -> flat_map mentions l = [] -> Forall plain l.
Proof.
  induction 1 as [|q l F _ IH]; cbn; intros H; [constructor|]. apply app_eq_nil in H as [H1 H2]. constructor; auto. split; auto.
  intros C. apply fixed_computed in C. congruence.
Qed.
Lemma collect_pending p done r : stands p done ->
  (p_text p = [] /\ flat_map mentions done = [] /\ collect (pending_part p ++ r) = collect r) \/
  (p_caps p = [] /\ p_text p <> [] /\ collect (pending_part p ++ r) = []) \/
  (collect (pending_part p ++ r) = flat_map mentions done ++ collect r).
Proof.
  intros (C & L & F & T & X). unfold pending_part. destruct (p_text p) as [|c t] eqn:E.
  - left. rewrite <- C, T by reflexivity. auto.
  - destruct (p_lit p) eqn:PL; [right; left; split; [auto|split; [discriminate|reflexivity]]|].
    destruct (p_caps p) as [|k ks] eqn:PC; [right; left; split; [auto|split; [discriminate|reflexivity]]|].
    right. right. rewrite <- C. reflexivity.
Qed.
Lemma collect_crun l : forall p done, stands p done ->
  exists pre post, done ++ l = pre ++ post /\ Permutation (collect (crun p l)) (flat_map mentions pre) /\ (post = [] \/ gap pre post).
Proof.
  induction l as [|q l IH]; intros p done ST; cbn [crun].
  - rewrite <- (app_nil_r (pending_part p)). destruct (collect_pending p done [] ST) as [(T & M & CE)|[(T & N & CE)|CE]]; rewrite CE; clear CE.
    + exists done, []. rewrite M. cbn [collect]. splits; auto using perm_nil.
    + exists [], done. rewrite app_nil_r. splits; auto. right. split; [now left|]. exists done, []. destruct ST as (C & _ & F & _ & X).
      rewrite app_nil_r. splits; auto. apply mentions_nil; auto. now rewrite <- C, T.
    + exists done, []. cbn [collect]. rewrite !app_nil_r. splits; auto.
  - destruct (fixed q) eqn:F.
    + destruct (IH _ _ (stands_step p done q ST F)) as (pre & post & E & P & G). rewrite <- app_assoc in E. exists pre, post. auto.
    + destruct (compact_computed [] p q F) as (m & -> & _). apply fixed_computed in F.
      destruct (IH nothing_pending [] stands_nothing) as (pre & post & E & P & G). cbn [app] in E.
      assert (GO : post = [] \/ gap (done ++ QMatch m :: pre) post).
      { destruct G as [G|[G1 G2]]; [now left|right]. split; [|exact G2]. right. destruct G1 as [->|(l' & q' & -> & C')].
        - exists done, (QMatch m). auto.
        - exists (done ++ QMatch m :: l'), q'. split; [now rewrite <- app_assoc|exact C']. }
      destruct (collect_pending p done (KMatch m :: crun nothing_pending l) ST) as [(T & M & CE)|[(T & N & CE)|CE]]; rewrite CE; clear CE.
      * exists (done ++ QMatch m :: pre), post. splits; auto; [rewrite E; now rewrite <- app_assoc|].
        rewrite flat_map_app, M. cbn [collect app flat_map]. now apply Permutation_app; [apply in_match_all|].
      * exists [], (done ++ QMatch m :: l). splits; auto. right. split; [now left|]. exists done, (QMatch m :: l). destruct ST as (C & _ & F' & _ & X).
        splits; auto; [|right; eauto]. apply mentions_nil; auto. now rewrite <- C, T.
      * exists (done ++ QMatch m :: pre), post. splits; auto; [rewrite E; now rewrite <- app_assoc|].
        rewrite flat_map_app. cbn [collect flat_map]. apply Permutation_app_head. now apply Permutation_app; [apply in_match_all|].
Qed.
Lemma crun_fixed l : forall p out, forallb fixed l = true -> exists p', fold_left compact_one l (out, p) = (out, p') /\ crun p l = pending_part p' /\
  forall done, stands p done -> stands p' (done ++ l).
Proof.
  induction l as [|q l IH]; intros p out H; cbn [fold_left crun].
  - exists p. splits; auto. intros done. now rewrite app_nil_r.
  - cbn [forallb] in H. apply andb_prop in H as [F H]. rewrite F, compact_fixed by exact F. destruct (IH (step1 p q) out H) as (p' & E & C & S).
    exists p'. splits; auto. intros done ST. replace (done ++ q :: l) with ((done ++ [q]) ++ l) by now rewrite <- app_assoc. apply S. now apply stands_step.
Qed.
