(** C21: when checking cannot abort. *)
From Coq Require Import String. Open Scope string_scope.
From Verif Require Import Base Text_Model Text_Spec Text_Proofs Cursor_Model Cursor_Spec Cursor_Proofs
  Check_Model Program_Model Check_Spec Check_Proofs Program_Proofs Accept_Proofs File_Spec File_Proofs File_Props Free_Proofs
  Compose_Proofs Lit_Model Lit_Spec Lit_Proofs Lit_Props Lit_Examples Total_Spec Total_Proofs.
Open Scope list_scope.

Lemma push_failed_infos ms e : infos (ms_push ms (failed e)) = infos ms.
Proof.
  induction ms as [|m ms IH]; [reflexivity|]. cbn [ms_push]. replace (before m (failed e)) with true by (unfold before; cbn; destruct (m_info m); reflexivity).
  cbn [infos]. now rewrite IH.
Qed.
Lemma missing_infos n : forall k got acc, infos (missing n k got acc) = infos acc.
Proof. induction n as [|n IH]; intros k got acc; cbn [missing]; auto. rewrite IH. destruct (existsb _ _); auto using push_failed_infos. Qed.

Lemma visit_fit fuel : forall b ps s e start got ms pos, e <= List.length b -> s <= start <= e -> fit s start got ->
  (forall m i, In m got -> m_info m = Some i -> rstart (i_span i) < rend (i_span i)) ->
  (forall m, In m got -> m_info m <> None) ->
  visit fuel b ps e start got = Val (ms, pos) -> fit s e ms.
Proof.
  induction fuel as [|fuel IH]; intros b ps s e start got ms pos EL SE G NZ AL V; [discriminate|]. cbn [visit] in V.
  pose proof (leftmost_set_spec false b ps e (e - start) start ltac:(lia)) as LS.
  destruct (leftmost_set false b ps e (e - start) start) as [[[i k] p]|].
  - destruct LS as (N & (O1 & O2 & O3) & _). set (stop := i + List.length (lit_text p)) in *.
    assert (SI : start <= i /\ i < stop) by (unfold stop; simpl; lia).
    destruct (_ || _)%bool.
    + apply (IH b ps s e stop got ms pos); auto; try lia. eapply fit_weaken; [| | |exact G]; lia.
    + set (m := mkRes Good (Some (mkInfo (mkRange i stop) k (lit_span p)))) in *.
      assert (PL : ms_push got m = got ++ [m]).
      { apply (push_last got m (mkInfo (mkRange i stop) k (lit_span p))); [reflexivity|]. intros x X.
        destruct (m_info x) as [j|] eqn:J; [|exfalso; now apply (AL x)]. exists j. split; auto.
        pose proof (NZ x j X J). assert (rend (i_span j) <= start); [|cbn; lia].
        destruct G as [GO GL]. clear - X J GO GL.
        revert s GO GL. induction got as [|y got IH]; intros s GO GL; [destruct X|]. cbn [infos] in GO, GL.
        destruct X as [->|X].
        - rewrite J in GO, GL. cbn in GO, GL. destruct GO as [_ GO]. pose proof (in_order_le _ _ GO). lia.
        - destruct (m_info y); cbn in GO, GL; [destruct GO as [_ GO]|]; eapply IH; eauto. }
      rewrite PL in V.
      assert (G' : fit s stop (got ++ [m])).
      { destruct G as [GO GL]. unfold fit. rewrite infos_app. cbn [infos m m_info]. rewrite last_end_app. split; [|cbn; lia].
        apply in_order_app. split; auto. cbn. lia. }
      destruct (Nat.eqb (List.length ps) (List.length (got ++ [m]))).
      * injection V as <- _. eapply fit_weaken; [| | |exact G']; lia.
      * apply (IH b ps s e stop (got ++ [m]) ms pos); auto; try lia.
        -- intros x j X J. apply in_app_or in X as [X|[<-|[]]]; [eauto|]. injection J as <-. cbn. lia.
        -- intros x X. apply in_app_or in X as [X|[<-|[]]]; [auto|discriminate].
  - assert (G' : fit s e got) by (eapply fit_weaken; [| | |exact G]; lia).
    injection V as <- _. destruct (Nat.eqb _ _); auto. destruct G' as [GO GL]. split; rewrite missing_infos; auto.
Qed.

Theorem lit_lang_total ci : lang_total (lit_lang ci).
Proof.
  constructor; cbn [pm dm lit_lang pat env].
  - intros p b s e en m en' i H M T I. injection M as <- _. unfold lit_match in I. cbn [rstart rend] in I.
    pose proof (leftmost_spec ci b p e (e - s) s ltac:(lia)) as LS.
    destruct (leftmost ci b (lit_text p) e (e - s) s) as [k|]; [|discriminate]. injection I as <-. cbn [i_span rstart].
    destruct LS as [(A & B & _) _]. simpl in B. lia.
  - intros ps b s e en ms en' pos H NE D. unfold lit_dag in D. cbn [rstart rend] in D.
    destruct (visit _ _ _ _ _ _) as [[ms' pos']| |] eqn:V; try discriminate. cbn [bind] in D. injection D as <- _ _.
    eapply (visit_fit _ b _ s e s []); [lia|lia|split; cbn; auto|intros m i []|intros m []|exact V].
Qed.

(** C21: checking a file of literals against any input ends in a verdict, if no CHECK-NOT stands
    between a CHECK-DAG and a directive that must match, CHECK-NEXT occurs only in the last part,
    and the first label is not on the first line of an input that something is checked on before.
    Missing: the other patterns, and CR LF inputs when lines matter. *)
Theorem C21_no_abort_partial ci allow imp (f : file (lit_lang ci)) b : lf_input b -> file_ok f -> calm imp f ->
  (forall p, In p (map fst (f_blocks f)) -> lit_hd p <> LF) -> room b imp f tt ->
  filecheck allow imp (file_lines f) b tt <> Panic.
Proof.
  intros A1 A2 A3 A4 A5. apply (filecheck_total (lit_lang_ok ci) (lit_lang_total ci)); auto.
  intros p P. apply lit_solid. auto.
Qed.
(** Without labels, on any input unless CHECK-NEXT, CHECK-SAME or CHECK-EMPTY occur. *)
Theorem C21_no_abort_flat_partial ci allow imp (ls : list (line (lit_lang ci))) b : readable b ls -> flat_ok ls ->
  ~ trapped (with_implicit imp ls) -> filecheck allow imp ls b tt <> Panic.
Proof.
  intros R F T. assert (CM : calm imp (mkFile ls [])).
  { split.
    - intros l [<-|[]]. exact T.
    - intros bf l af Q NE. cbn in Q. destruct bf as [|x bf]; [injection Q as <- <-; congruence|]. injection Q as _ Q. destruct bf; discriminate. }
  destruct R as [R|R].
  - pose proof (C21_no_abort_partial ci allow imp (mkFile ls []) b R (flat_file_ok ls F) CM) as H.
    assert (FL : file_lines (mkFile (L:=lit_lang ci) ls []) = ls) by (unfold file_lines; simpl; apply app_nil_r).
    rewrite FL in H. apply H; [intros p []|]. right. simpl. discriminate.
  - apply (filecheck_total_free (lit_lang_ok ci) (lit_lang_total ci)); auto. now apply flat_file_ok.
Qed.

(** Files the theorem covers: CHECK-DAG after CHECK-NOT, and before a last CHECK-NOT; the other
    order is the one that can abort. *)
Example C21_ex :
  ~ trapped (L:=lit_lang false) [dir KNot "q" 1; dir KDag "b" 2; dir KDag "zzz" 3; dir KPlain "a" 4; dir KNot "r" 5] /\
  (exists t, run None [dir KNot "q" 1; dir KDag "b" 2; dir KDag "zzz" 3; dir KPlain "a" 4; dir KNot "r" 5] "a b" = Val t /\ t_errors t <> []) /\
  trapped (L:=lit_lang false) [dir KDag "b" 1; dir KDag "zzz" 2; dir KNot "q" 3; dir KPlain "a" 4].
Proof.
  split; [|split].
  - intros (pre & d & mid & n & post & p & E & D & N & P & PN).
    assert (L : (List.length pre + List.length mid + List.length post = 3)%nat) by (apply (f_equal (@List.length _)) in E; rewrite app_length in E; cbn in E; rewrite app_length in E; cbn in E; lia).
    repeat (destruct pre as [|? pre]; cbn in E; [injection E as <- E|injection E as _ E]; try discriminate D);
    repeat (destruct mid as [|? mid]; cbn in E; [injection E as <- E; try discriminate N|injection E as _ E]);
    try discriminate; try (subst post; destruct P as [<-|[]]; now apply PN); try (subst post; destruct P).
  - eexists. split; [vm_compute; reflexivity|]. discriminate.
  - exists [], (dir KDag "b" 1), [dir KDag "zzz" 2], (dir KNot "q" 3), [dir KPlain "a" 4], (dir KPlain "a" 4).
    repeat split; try reflexivity; [now left|discriminate].
Qed.
(** A file with two labels. *)
Definition calm_file : file (lit_lang false) :=
  mkFile [dir KPlain "p" 0] [(lp "f:" 1, [dir KPlain "x" 2]); (lp "g:" 3, [dir KNext "z" 4])].
Example C21_ex_labels : calm (L:=lit_lang false) None calm_file /\ room (of_string two_input) None calm_file tt /\
  (exists t, filecheck false None (file_lines calm_file) (of_string two_input) tt = Val t /\ t_errors t = [ENone]).
Proof.
  assert (C : calm (L:=lit_lang false) None calm_file).
  { split.
    - intros ls I (pre & d & mid & n & post & p & E & D & _).
      assert (ND : forall l, In l ls -> l_kind l <> KDag).
      { intros l X. repeat destruct I as [<-|I]; try destruct I; repeat destruct X as [<-|X]; try destruct X; discriminate. }
      apply (ND d); auto. rewrite E. apply in_or_app. right. now left.
    - intros bf ls af E NE l X K. cbn in E.
      destruct bf as [|? bf]; [injection E as <- _; destruct X as [<-|[]]; discriminate|injection E as _ E].
      destruct bf as [|? bf]; [injection E as <- _; destruct X as [<-|[]]; discriminate|injection E as _ E].
      destruct bf as [|? bf]; [injection E as <- <-; now apply NE|]. injection E as _ E. destruct bf; discriminate. }
  destruct C20_ex as (_ & _ & _ & A4 & _). split; [exact C|]. split; [exact A4|].
  eexists. split; [vm_compute; reflexivity|reflexivity].
Qed.
Print Assumptions C21_no_abort_partial.
Print Assumptions C21_no_abort_flat_partial.
