(** C20, C22, C24: whole check files, over any pattern language. *)
From Coq Require String.
From Verif Require Import Base Text_Model Text_Spec Text_Proofs Cursor_Model Cursor_Spec Cursor_Proofs
  Check_Model Program_Model Check_Spec Check_Proofs Program_Proofs Accept_Proofs File_Spec File_Proofs Free_Proofs.

Section FileProps.
Context {L : lang} (LO : lang_ok L).

(** A file without labels. *)
Definition flat_ok (ls : list (line L)) : Prop :=
  forall l, In l ls -> l_kind l <> KLabel /\ l_kind l <> KCount 0.
Lemma flat_file_ok ls : flat_ok ls -> file_ok (mkFile ls []).
Proof.
  intros H. split; [|split].
  - intros l I. apply (H l I).
  - intros bl [].
  - intros l I. unfold file_lines in I. simpl in I. rewrite app_nil_r in I. apply (H l I).
Qed.
Lemma with_no_implicit ls : with_implicit (L:=L) None ls = ls.
Proof. unfold with_implicit. simpl. induction ls as [|l r IH]; simpl; auto. rewrite IH. now destruct (l_kind l). Qed.
Lemma flat_holds imp ls b e out : file_holds b imp (mkFile (L:=L) ls []) e out <->
  exists en', accepts b (length b) (with_implicit imp ls) [] false 0 (enter e) out en'.
Proof.
  unfold file_holds. simpl. split.
  - intros (is & en' & LA & H). inversion LA; subst. exists en'.
    assert (P : parts_hold b 0 (with_implicit imp ls) [] [] e out en').
    { destruct (with_implicit imp ls); exact H. }
    inversion P; subst. auto.
  - intros (en' & H). exists [], en'. split; [constructor|].
    assert (P : parts_hold b 0 (with_implicit imp ls) [] [] e out en') by (constructor; auto).
    destruct (with_implicit imp ls); exact P.
Qed.

(** C22.  A check file passes exactly when every directive of it holds of the input in the sense of
    [file_holds], and the matches reported are then those of [file_holds]: no failure of a single
    directive is swallowed.  (Whether a run with failures returns at all is C21.) *)
Theorem C22_pass_iff_holds_partial allow imp (f : file L) b e : lf_input b \/ f_blocks f = [] /\ line_free (f_prefix f) -> file_ok f ->
  (forall p, In p (map fst (f_blocks f)) -> solid p) -> room b imp f e ->
  b <> [] \/ allow = true -> file_lines f <> [] \/ imp <> None -> anchored (f_prefix f) ->
  forall out, file_holds b imp f e out <->
    exists t, filecheck allow imp (file_lines f) b e = Val t /\ t_errors t = [] /\ t_matches t = out.
Proof.
  intros [A1|[A1 A1']] A2 A3 A4 A5 A6 AN out.
  2:{ destruct f as [ls bl]. cbn [f_blocks f_prefix] in *. subst bl. assert (FL : file_lines (mkFile ls []) = ls) by (unfold file_lines; simpl; apply app_nil_r).
      rewrite FL in *. destruct (filecheck_free LO allow imp ls b e A1' A2 A5 A6) as [H1 H2]. rewrite flat_holds. split.
      - intros (en' & H). eapply H1; eauto.
      - intros (t & T & E & <-). apply H2; auto. }
  destruct (filecheck_file LO allow imp f b e A1 A2 A3 A4 A5 A6) as [H _].
  destruct (H AN) as [H1 H2]. split; [apply H1|]. intros (t & T & E & <-). apply H2; auto.
Qed.
(** A check file whose first part begins with a directive that needs a previous match is refused. *)
Theorem C22_unanchored_refused allow imp (f : file L) b e : lf_input b -> file_ok f ->
  (forall p, In p (map fst (f_blocks f)) -> solid p) -> room b imp f e ->
  b <> [] \/ allow = true -> file_lines f <> [] \/ imp <> None -> ~ anchored (f_prefix f) ->
  filecheck allow imp (file_lines f) b e = Err.
Proof.
  intros A1 A2 A3 A4 A5 A6. destruct (filecheck_file LO allow imp f b e A1 A2 A3 A4 A5 A6) as [_ H]. exact H.
Qed.

(** The same for a file without labels and implicit checks: the directives hold one after the
    other, from the start of the input to its end. *)
Theorem C22_flat allow ls b e : readable b ls -> flat_ok ls -> ls <> [] -> b <> [] \/ allow = true -> anchored ls ->
  forall out, (exists en', accepts b (length b) ls [] false 0 (enter e) out en') <->
    exists t, filecheck allow None ls b e = Val t /\ t_errors t = [] /\ t_matches t = out.
Proof.
  intros A1 A2 A3 A4 A5 out.
  assert (FL : file_lines (mkFile ls []) = ls) by (unfold file_lines; simpl; apply app_nil_r).
  assert (FH : (exists en', accepts b (length b) ls [] false 0 (enter e) out en') <-> file_holds b None (mkFile ls []) e out)
    by (rewrite flat_holds, with_no_implicit; reflexivity).
  assert (R1 : lf_input b \/ f_blocks (mkFile ls []) = [] /\ line_free (f_prefix (mkFile ls []))) by (destruct A1; auto).
  rewrite FH, (C22_pass_iff_holds_partial allow None (mkFile ls []) b e R1 (flat_file_ok ls A2)).
  - now rewrite FL.
  - intros p [].
  - right. simpl. discriminate.
  - auto.
  - left. congruence.
  - auto.
Qed.

(** C20: when the file passes, the labels were found one after the other, each on a line after the
    line of the previous one; a file with a label that cannot be found does not pass. *)
Theorem C20_labels_found allow imp (f : file L) b e t : lf_input b -> file_ok f ->
  (forall p, In p (map fst (f_blocks f)) -> solid p) -> room b imp f e ->
  b <> [] \/ allow = true -> file_lines f <> [] \/ imp <> None -> anchored (f_prefix f) ->
  filecheck allow imp (file_lines f) b e = Val t -> t_errors t = [] ->
  exists is, labels_at b e 0 (map fst (f_blocks f)) is /\ incl is (t_matches t).
Proof.
  intros A1 A2 A3 A4 A5 A6 A7 T TE.
  destruct (proj2 (C22_pass_iff_holds_partial allow imp f b e (or_introl A1) A2 A3 A4 A5 A6 A7 (t_matches t))) as (is & en' & LA & H);
    [eauto|].
  exists is. split; auto.
  assert (P : forall start body rest is en out en', parts_hold (L:=L) b start body rest is en out en' -> incl is out).
  { clear. intros start body rest is en out en' H. induction H; intros x X; [destruct X|]. apply in_or_app; right. destruct X as [<-|X]; simpl; auto. }
  cbv zeta in H. destruct (with_implicit imp (f_prefix f)); [|eapply P; eauto].
  destruct (map (fun bl => (implied imp ++ snd bl)%list) (f_blocks f)) eqn:M; [eapply P; eauto|]. destruct is as [|i is]; [apply incl_nil_l|].
  destruct H as (s & out' & _ & -> & H). apply P in H. intros x [<-|X]; simpl; auto.
Qed.
Corollary C20_missing_label allow imp (f : file L) b e t : lf_input b -> file_ok f ->
  (forall p, In p (map fst (f_blocks f)) -> solid p) -> room b imp f e ->
  b <> [] \/ allow = true -> file_lines f <> [] \/ imp <> None -> anchored (f_prefix f) ->
  (forall is, ~ labels_at b e 0 (map fst (f_blocks f)) is) ->
  filecheck allow imp (file_lines f) b e = Val t -> t_errors t <> [].
Proof.
  intros A1 A2 A3 A4 A5 A6 A7 NO T TE.
  destruct (C20_labels_found allow imp f b e t A1 A2 A3 A4 A5 A6 A7 T TE) as (is & H & _). exact (NO is H).
Qed.

Lemma accepts_between (b : bytes) E : block_end_ok b E -> forall (ls : list (line L)) nots strict pos en out en',
  accepts b E ls nots strict pos en out en' -> pos <= E -> in_order pos out /\ last_end pos out <= E.
Proof.
  intros BE ls nots strict pos en out en' H.
  induction H as [nots strict pos en A|p ls nots strict pos en out en' H IH
                 |k p ls nots strict pos en is en1 out en' F A G H IH
                 |ds ls nots strict pos en ms en1 stop out en' D1 D2 D3 D4 A touch TC H IH]; intros P.
  - simpl. auto.
  - auto.
  - assert (K : k <> KCount 0) by (intros ->; inversion F).
    apply (fires_iff LO b E BE) in F as (rs & KR & RR); auto.
    apply (rules_run_in LO b E BE) in RR as (O & NE & F1 & F2); [|eapply nonempty_rules; eauto|auto].
    destruct (IH F2) as [O' L']. rewrite in_order_app, last_end_app. auto.
  - assert (RR : dag_run b E ds pos en = Some (infos ms, en1)) by (unfold dag_run; rewrite D3, D4; auto).
    apply (dag_run_in LO b E BE) in RR as (O & NE & F1 & F2); auto.
    destruct (IH F2) as [O' L']. rewrite in_order_app, last_end_app. auto.
Qed.
Lemma in_order_bound out : forall pos hi, in_order pos out -> last_end pos out <= hi -> between pos hi out.
Proof.
  intros pos hi O H. split; auto. revert pos O H. induction out as [|i r IH]; intros pos O H j [].
  - subst j. destruct O as [_ O]. simpl in H. apply in_order_le in O. lia.
  - destruct O as [_ O]. simpl in H. eapply IH; eauto.
Qed.

(** C20: no check matches outside its block.  The reported matches are those of the parts, cut by
    the labels: the matches of a part come in order, after the line of its label, and before the
    line of the next one. *)
Theorem C20_blocks allow imp (f : file L) b e t : lf_input b -> file_ok f ->
  (forall p, In p (map fst (f_blocks f)) -> solid p) -> room b imp f e ->
  b <> [] \/ allow = true -> file_lines f <> [] \/ imp <> None -> anchored (f_prefix f) ->
  filecheck allow imp (file_lines f) b e = Val t -> t_errors t = [] ->
  exists is, labels_at b e 0 (map fst (f_blocks f)) is /\
    (in_blocks b 0 is (t_matches t) \/
     exists i is' s out, is = i :: is' /\ t_matches t = i :: out /\ line_end b (rstart (i_span i)) s /\ in_blocks b s is' out).
Proof.
  intros A1 A2 A3 A4 A5 A6 A7 T TE.
  destruct (proj2 (C22_pass_iff_holds_partial allow imp f b e (or_introl A1) A2 A3 A4 A5 A6 A7 (t_matches t))) as (is & en' & LA & H);
    [eauto|].
  exists is. split; auto. clear T TE.
  assert (SOL : forall ps from is, labels_at b e from ps is -> from <= length b -> (forall p, In p ps -> solid p) -> 
     forall i, In i is -> exists x, byte_at b (rstart (i_span i)) x /\ x <> LF).
  { clear. intros ps from is H. induction H as [|from p ps i is en' s F LE H IH]; intros FL SO j []; [|apply IH; auto; [apply LE|intros; apply SO; simpl; auto]].
    subst j. destruct F as (m & M & _ & I). destruct (SO p (or_introl eq_refl) _ _ _ _ _ _ (conj FL (le_n _)) M) as [_ S2]. eauto. }
  specialize (SOL _ _ _ LA (Nat.le_0_l _) A3).
  assert (SRT : forall ps from is, labels_at b e from ps is -> from <= length b ->
     forall i, head is = Some i -> from <= rstart (i_span i)).
  { intros ps from js J FL i HD. inversion J as [|? p ps' j js' en2 s F LE J']; subst; [discriminate|]. injection HD as ->.
    destruct F as (m & M & TY & I). destruct (ok_pm L LO p b from (length b) e) as (m' & en3 & M' & D); [lia|].
    rewrite M in M'. injection M' as <- <-. destruct D as [(_ & i' & I' & R & _)|(er & X & _)]; [|congruence].
    rewrite I in I'. injection I' as <-. simpl in R. lia. }
  assert (P : forall start body rest js en out en1, parts_hold (L:=L) b start body rest js en out en1 ->
     forall ps, (forall i, In i js -> exists x, byte_at b (rstart (i_span i)) x /\ x <> LF) -> labels_at b e start ps js -> start <= length b ->
     (start = 0 \/ byte_at b start LF \/ js = []) ->
     in_blocks b start js out).
  { clear - LO SRT. intros start body rest js en out en1 H. induction H as [start body en out en1 AC|
      start body en out en1 ee i next s rest js out' en' LL AC LE H IH]; intros ps SOL LA ST SB.
    - constructor. destruct (accepts_between b (length b) (or_introl eq_refl) _ _ _ _ _ _ _ AC ST). now apply in_order_bound.
    - destruct LL as (L1 & L2 & L3). destruct (SOL i (or_introl eq_refl)) as (x & X1 & X2).
      assert (LT : rstart (i_span i) < length b) by (apply nth_error_Some; unfold byte_at in X1; congruence).
      assert (BE : block_end_ok b ee).
      { right. split; auto. assert (E1 : ee + 1 <= rstart (i_span i)) by lia.
        destruct (nth_error b (ee + 1)) as [y|] eqn:Y.
        - exists y. split; auto. intros ->. destruct (Nat.eq_dec (ee + 1) (rstart (i_span i))) as [Q|Q].
          + rewrite Q in Y. unfold byte_at in X1. congruence.
          + apply (L3 (ee + 1)); [lia|]. exact Y.
        - apply nth_error_None in Y. lia. }
      assert (SE : start <= ee).
      { destruct SB as [->|[SB|]]; [lia| |discriminate]. pose proof (SRT _ _ _ LA ST i eq_refl).
        destruct (Nat.le_gt_cases start ee); auto. destruct (Nat.eq_dec start (rstart (i_span i))) as [Q|Q].
        - rewrite Q in SB. unfold byte_at in *. congruence.
        - exfalso. apply (L3 start); auto. lia. }
      inversion LA as [|? p ps' j js' en2 s2 F LE2 LA']; subst.
      assert (s2 = s) by (destruct LE as (Q1 & Q2 & Q3), LE2 as (Q4 & Q5 & Q6);
        destruct (Nat.lt_trichotomy s s2) as [Q|[Q|Q]]; auto; exfalso;
        [destruct Q3; [lia|apply (Q5 s); auto; lia]|destruct Q6; [lia|apply (Q2 s2); auto; lia]]). subst s2.
      eapply Ib_more with (e := ee) (s := s); auto.
      + destruct (accepts_between b ee BE _ _ _ _ _ _ _ AC SE). now apply in_order_bound.
      + split; auto.
      + apply (IH ps'); auto.
        * intros z Z. apply SOL. simpl; auto.
        * destruct LE; lia.
        * destruct LE as (_ & _ & [->|Q]); auto. destruct js as [|z js]; auto. exfalso.
          pose proof (SRT _ _ _ LA' (le_n _) z eq_refl). destruct (SOL z) as (y & Y & _); [simpl; auto|].
          assert (rstart (i_span z) < length b) by (apply nth_error_Some; unfold byte_at in Y; congruence). lia. }
  cbv zeta in H. destruct (with_implicit imp (f_prefix f)) as [|l0 pre].
  - destruct (map (fun bl => (implied imp ++ snd bl)%list) (f_blocks f)) as [|first rest] eqn:M.
    + left. eapply P; eauto. lia.
    + destruct is as [|i is].
      * left. eapply P; eauto. lia.
      * right. destruct H as (s & out' & LE & OUT & H). exists i, is, s, out'. splits; auto.
        inversion LA as [|? p ps' j js' en2 s2 F LE2 LA']; subst.
        assert (s2 = s) by (destruct LE as (Q1 & Q2 & Q3), LE2 as (Q4 & Q5 & Q6);
          destruct (Nat.lt_trichotomy s s2) as [Q|[Q|Q]]; auto; exfalso;
          [destruct Q3; [lia|apply (Q5 s); auto; lia]|destruct Q6; [lia|apply (Q2 s2); auto; lia]]). subst s2.
        eapply P; eauto.
        -- intros z Z. apply SOL. simpl; auto.
        -- destruct LE; lia.
        -- destruct LE as (_ & _ & [->|Q]); auto. destruct is as [|z js]; auto. exfalso.
           pose proof (SRT _ _ _ LA' (le_n _) z eq_refl). destruct (SOL z) as (y & Y & _); [simpl; auto|].
           assert (rstart (i_span z) < length b) by (apply nth_error_Some; unfold byte_at in Y; congruence). lia.
  - left. eapply P; eauto. lia.
Qed.

(** * C24 *)
(** The directives a compiled group stands for, in the order of the check file.  The text of a
    CHECK-EMPTY (there is none) is not kept. *)
Definition rule_dir (r : rule L) : kind * option (pat L) :=
  match r with
  | RPlain p => (KPlain, Some p) | RNext p => (KNext, Some p) | RSame p => (KSame, Some p) | REmpty => (KEmpty, None)
  end.
Definition count_dir (r : rule L) (n : nat) : kind * option (pat L) :=
  match r with RPlain p => (KCount n, Some p) | _ => rule_dir r end.
Fixpoint group_dirs (g : group L) : list (kind * option (pat L)) :=
  match g with
  | GNever ps => map (fun p => (KNot, Some p)) ps
  | GUnordered ds => map (fun p => (KDag, Some p)) ds
  | GBounded ds g' => map (fun p => (KDag, Some p)) ds ++ group_dirs g'
  | GOrdered rs => map rule_dir rs
  | GRepeated r n => [count_dir r n]
  | GTree t => tree_dirs t
  end
with tree_dirs (t : tree L) : list (kind * option (pat L)) :=
  match t with
  | TAll g => group_dirs g
  | TAround root l r => tree_dirs l ++ map (fun p => (KNot, Some p)) root ++ tree_dirs r
  | TBefore root l => tree_dirs l ++ map (fun p => (KNot, Some p)) root
  | TAfter root r => map (fun p => (KNot, Some p)) root ++ tree_dirs r
  end.
Definition groups_dirs (gs : list (group L)) : list (kind * option (pat L)) := flat_map group_dirs gs.
Definition line_dir (l : line L) : kind * option (pat L) :=
  (l_kind l, match l_kind l with KEmpty => None | _ => Some (l_pat l) end).

Definition item_dirs (it : item L) : list (kind * option (pat L)) :=
  match it with
  | INots ps => map (fun p => (KNot, Some p)) ps
  | IDags ds _ => map (fun p => (KDag, Some p)) ds
  | IRule r => [rule_dir r]
  | ICount r n => [count_dir r n]
  end.
Lemma dirs_flat : (forall g : group L, group_dirs g = flat_map item_dirs (flat g)) /\
  (forall t : tree L, tree_dirs t = flat_map item_dirs (flat_tree t)).
Proof.
  apply group_tree_ind.
  - intros ps. simpl. now rewrite app_nil_r.
  - intros ds. simpl. now rewrite app_nil_r.
  - intros ds g IH. change (map (fun p => (KDag, Some p)) ds ++ group_dirs g = flat_map item_dirs (IDags ds true :: flat g)). rewrite IH. reflexivity.
  - intros rs. simpl. induction rs as [|r rs IH]; simpl; auto. now rewrite IH.
  - intros r n. reflexivity.
  - intros t IH. exact IH.
  - intros g IH. exact IH.
  - intros root l IH1 r IH2.
    change (tree_dirs l ++ map (fun p => (KNot, Some p)) root ++ tree_dirs r = flat_map item_dirs (flat_tree l ++ INots root :: flat_tree r)).
    rewrite flat_map_app, IH1, IH2. reflexivity.
  - intros root l IH.
    change (tree_dirs l ++ map (fun p => (KNot, Some p)) root = flat_map item_dirs (flat_tree l ++ [INots root])).
    rewrite flat_map_app, IH. simpl. now rewrite app_nil_r.
  - intros root r IH.
    change (map (fun p => (KNot, Some p)) root ++ tree_dirs r = flat_map item_dirs (INots root :: flat_tree r)). rewrite IH. reflexivity.
Qed.
Lemma dirs_flats gs : groups_dirs gs = flat_map item_dirs (flats gs).
Proof.
  unfold groups_dirs, flats. induction gs as [|g r IH]; simpl; auto. rewrite flat_map_app, IH. f_equal. apply (proj1 dirs_flat).
Qed.
Lemma dirs_items ls : unlabelled ls -> flat_map item_dirs (items_of ls) = map line_dir ls.
Proof.
  induction ls as [|l ls IH]; intros U; auto. inversion U; subst. specialize (IH H2).
  change (items_of (l :: ls)) with (cons_line l (items_of ls)). destruct l as [k p]. cbn [map]. rewrite <- IH.
  destruct k; simpl in *; try reflexivity; try congruence; destruct (items_of ls) as [|[] ?]; reflexivity.
Qed.

(** C24.  The compiled program contains each directive of the check file exactly once, in source
    order, in the block of its label; --implicit-check-not only adds CHECK-NOT lines. *)
Theorem C24_compile_keeps_directives imp (f : file L) secs : file_ok f -> compile imp (file_lines f) = Val secs ->
  exists pre gss, secs = map SGroup pre ++ map (fun x => SBlock (fst x) (snd x)) (combine (map fst (f_blocks f)) gss) /\
    groups_dirs pre = map line_dir (with_implicit imp (f_prefix f)) /\
    map groups_dirs gss = map (fun bl => map line_dir (implied imp ++ snd bl)) (f_blocks f).
Proof.
  intros OK C.
  assert (NE : file_lines f <> [] \/ imp <> None).
  { unfold compile in C. destruct (file_lines f); [|left; discriminate]. destruct imp; [right; discriminate|discriminate]. }
  pose proof (compile_file imp f OK NE) as CF. destruct (anchoredb false (f_prefix f)); [|congruence].
  destruct CF as (pre & gss & (_ & G1) & G2 & _ & C2). rewrite C in C2. injection C2 as ->. exists pre, gss. splits.
  - f_equal. clear. revert gss. induction (f_blocks f) as [|bl r IH]; intros [|g gss]; simpl; auto. now rewrite IH.
  - rewrite dirs_flats, G1. apply dirs_items. destruct OK as (NP & _). clear - NP.
    unfold with_implicit. apply Forall_forall. intros l I. apply in_app_or in I as [I|I].
    + destruct imp; [destruct I as [<-|[]]; discriminate|contradiction].
    + apply in_flat_map in I as (x & X & [<-|I]); [apply (NP x X)|].
      destruct (l_kind x); try contradiction; destruct imp; try contradiction; destruct I as [<-|[]]; discriminate.
  - destruct OK as (_ & NB & _). clear - G2 NB. induction G2 as [|bl gs bls gss [_ G] F IH]; auto. cbn [map]. f_equal.
    + rewrite dirs_flats, G. apply dirs_items. apply Forall_app. split.
      * destruct imp; repeat constructor; discriminate.
      * apply Forall_forall. intros l I. exact (NB bl (or_introl eq_refl) l I).
    + apply IH. intros. apply NB. simpl; auto.
Qed.
End FileProps.

Print Assumptions C22_pass_iff_holds_partial.
Print Assumptions C22_unanchored_refused.
Print Assumptions C22_flat.
Print Assumptions C20_labels_found.
Print Assumptions C20_missing_label.
Print Assumptions C20_blocks.
Print Assumptions C24_compile_keeps_directives.
