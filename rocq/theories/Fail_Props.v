(** C60: a directive that fails leaves the position and the variables as they were. *)
From Coq Require Import String.
From Verif Require Import Base Text_Model Cursor_Model Check_Model Lit_Model.
Notation length := List.length.
Ltac splits := repeat match goal with |- _ /\ _ => split end.
Section P.
Context {L : lang}.
Lemma match_mut_fail (p : pat L) r s m s' : match_mut p r s = Val (m, s') -> s_cur s' = s_cur s /\ (m_is_ok m = false -> s' = s).
Proof.
  unfold match_mut. destruct (pm p (buf s) r (s_env s)) as [[m0 e]| |]; try discriminate. cbn [bind]. intros E. injection E as <- <-.
  destruct (m_is_ok m0) eqn:O; auto. split; auto. congruence.
Qed.
Lemma advance_fail m (s s' : @state L) : advance m s = Val s' -> m_is_ok m = false -> s' = s.
Proof. unfold advance. intros E O. destruct (m_info m); [rewrite O in E|]; congruence. Qed.
Lemma one_fail m : ms_ok [m] = false -> m_is_ok m = false. Proof. unfold ms_ok. cbn. now destruct (m_is_ok m). Qed.

(** CHECK, CHECK-NEXT, CHECK-EMPTY; CHECK-SAME keeps the position *)
Theorem C60_failed_directive_partial (r : @rule L) (s s' : @state L) ms :
  apply_rule r s = Val (ms, s') -> ms_ok ms = false ->
  s_cur s' = s_cur s /\ ((forall p, r <> RSame p) -> s' = s).
Proof.
  intros E O. destruct r as [p|p|p|]; cbn [apply_rule] in E.
  - unfold apply_plain in E. destruct (search_block _) as [r| |]; try discriminate. cbn [bind] in E. destruct (match_mut p r s) as [[m s1]| |] eqn:M; try discriminate. cbn [bind] in E.
    destruct (advance m s1) as [s2| |] eqn:A; try discriminate. cbn [bind] in E. injection E as <- <-. apply one_fail in O. apply (match_mut_fail p) in M as [_ M]. rewrite (M O) in *. apply advance_fail in A; auto. subst. auto.
  - unfold apply_next in E. destruct (start_of_next_line _) as [st| |]; try discriminate. cbn [bind] in E. destruct (next_newline_from _ st) as [o| |]; try discriminate. cbn [bind] in E.
    destruct (c_end (s_cur s) <=? st).
    + destruct (search_range _ _ _); try discriminate. cbn [bind] in E. injection E as _ <-. auto.
    + destruct (search_range _ _ _) as [r| |]; try discriminate. cbn [bind] in E. destruct (match_mut p r s) as [[m s1]| |] eqn:M; try discriminate. cbn [bind] in E.
      destruct (advance m s1) as [s2| |] eqn:A; try discriminate. cbn [bind] in E. injection E as <- <-. apply one_fail in O. apply (match_mut_fail p) in M as [_ M]. rewrite (M O) in *. apply advance_fail in A; auto. subst. auto.
  - split; [|intros X; now destruct (X p)]. unfold apply_same in E. destruct (search_line _) as [r| |]; try discriminate. cbn [bind] in E. destruct (match_mut p r s) as [[m s1]| |] eqn:M; try discriminate. cbn [bind] in E.
    apply (match_mut_fail p) in M as [M1 M]. destruct (m_info m) as [i|].
    + destruct (m_is_ok m) eqn:OM; [|injection E as <- <-; auto]. destruct (assert _); try discriminate. cbn [bind] in E. destruct (move_start _ _); try discriminate. cbn [bind] in E. injection E as <- <-. apply one_fail in O. congruence.
    + destruct (search_block _) as [r'| |]; try discriminate. cbn [bind] in E. destruct (match_mut p r' s1) as [[m' s2]| |] eqn:M'; try discriminate. cbn [bind] in E. apply (match_mut_fail p) in M' as [M' _]. destruct (m_info m'); injection E as _ <-; congruence.
  - unfold apply_empty in E. destruct (start_of_next_line _) as [nls| |]; try discriminate. cbn [bind] in E. destruct (next_newline_from _ _) as [o| |]; try discriminate. cbn [bind] in E. destruct (at_end_of_line _) as [a| |]; try discriminate. cbn [bind] in E.
    destruct (a && _)%bool.
    + destruct (move_start _ _); try discriminate. cbn [bind] in E. injection E as <- _. discriminate O.
    + destruct (search_range _ _ _); try discriminate. cbn [bind] in E. injection E as _ <-. auto.
Qed.
(** a CHECK-DAG group of which any directive fails *)
Theorem C60_failed_dag (ds : list (pat L)) (s s' : @state L) ms :
  apply_dag ds s = Val (ms, s') -> (exists m, In m ms /\ m_is_ok m = false) -> s' = s.
Proof.
  intros E (m & I & O). unfold apply_dag in E. destruct (search_block _) as [r| |]; try discriminate. cbn [bind] in E. destruct (dm _ _ _ _) as [[[ms0 e] pos]| |]; try discriminate. cbn [bind] in E.
  destruct (match pos with Some n => set_start (s_cur s) n | None => Val (s_cur s) end) as [c| |]; try discriminate. cbn [bind] in E. injection E as <- <-.
  destruct (ms_ok ms0) eqn:X; auto. unfold ms_ok in X. rewrite forallb_forall in X. now rewrite (X m I) in O.
Qed.
End P.

(** A language with one pattern that finds the letter [x] and counts how often it was found. *)
Fixpoint find_x (b : bytes) (n : nat) : option nat :=
  match b with [] => None | c :: r => if N.eqb c 120 then Some n else find_x r (S n) end.
Definition x_lang : lang := mkLang unit nat
  (fun _ b r n => match find_x (firstn (rend r - rstart r) (skipn (rstart r) b)) (rstart r) with
                  | Some i => Val (mkRes Good (Some (mkInfo (mkRange i (S i)) 0 0)), S n)
                  | None => Val (failed ENone, n) end)
  (fun _ _ _ n => Val (failed ENone, n)) (fun _ _ _ n => Val ([], n, None)) (fun n => n).
(** A CHECK-SAME that finds its text on a later line fails, but its bindings stay. *)
Theorem C60_same_refuted : exists (s s' : @state x_lang) ms, cursor_new [97; 10; 120]%N = Val (s_cur s) /\
  apply_rule (RSame (tt : pat x_lang)) s = Val (ms, s') /\ ms_ok ms = false /\ s_env s' <> s_env s.
Proof.
  destruct (cursor_new [97; 10; 120]%N) as [c| |] eqn:C; try discriminate. exists (mkState (L := x_lang) c 0). vm_compute in C. injection C as <-.
  eexists _, _. splits; [reflexivity|vm_compute; reflexivity|reflexivity|discriminate].
Qed.
(** the hypotheses of the theorem are met *)
Example failed_directive : exists c ms s', cursor_new [120; 10; 97]%N = Val c /\ apply_rule (RNext (tt : pat x_lang)) (mkState (L := x_lang) c 0) = Val (ms, s') /\ ms_ok ms = false.
Proof. eexists _, _, _. splits; [vm_compute; reflexivity..|reflexivity]. Qed.
Print Assumptions C60_failed_directive_partial.
Print Assumptions C60_failed_dag.
Print Assumptions C60_same_refuted.
