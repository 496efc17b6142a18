(** Examples and counterexamples for C13-C24, on literal patterns. *)
From Coq Require Import String. Open Scope string_scope.
From Verif Require Import Base Text_Model Text_Spec Text_Proofs Cursor_Model Cursor_Spec Cursor_Proofs
  Check_Model Program_Model Check_Spec Check_Proofs Program_Proofs Accept_Proofs File_Spec File_Proofs File_Props
  Compose_Proofs Lit_Model Lit_Spec Lit_Proofs Lit_Props.

(** An input without carriage returns is an LF input. *)
Lemma no_cr_lf_input (b : bytes) : existsb (N.eqb CR) b = false -> lf_input b.
Proof.
  intros H i _ _ P C. assert (X : existsb (N.eqb CR) b = true); [|congruence].
  apply existsb_exists. exists CR. split; [|reflexivity]. eapply nth_error_In; exact C.
Qed.

Definition dir (k : kind) (s : string) (at_ : nat) : line (lit_lang false) := mkLine (L:=lit_lang false) k (lp s at_).
Definition run (imp : option lit) (ls : list (line (lit_lang false))) (input : string) : res test_result :=
  filecheck (L:=lit_lang false) false imp ls (of_string input) tt.
Definition ok (r : res test_result) : bool := match r with Val t => t_is_ok t | _ => false end.
Definition spans_of (r : res test_result) : list (nat * nat) :=
  match r with Val t => map (fun i => (rstart (i_span i), rend (i_span i))) (t_matches t) | _ => [] end.
(** [ok] is passing. *)
Lemma ok_passes imp ls input : ok (run imp ls input) = true <-> exists out, passes false false imp ls (of_string input) out.
Proof.
  unfold ok, run, passes. destruct (filecheck _ _ _ _ _) as [t| |]; split; try discriminate.
  - unfold t_is_ok. destruct (t_errors t) eqn:E; [|discriminate]. intros _. exists (t_matches t), t. auto.
  - intros (out & t' & T & E & _). injection T as <-. unfold t_is_ok. now rewrite E.
  - intros (out & t' & T & _). discriminate.
  - intros (out & t' & T & _). discriminate.
Qed.

(** C13: the hypotheses are met, and both verdicts occur. *)
Example C13_ex : ok (run None [dir KPlain "ab" 7; dir KPlain "b" 17] ("xab" ++ nl ++ "ab")) = true
  /\ spans_of (run None [dir KPlain "ab" 7; dir KPlain "b" 17] ("xab" ++ nl ++ "ab")) = [(1, 3); (5, 6)]
  /\ ok (run None [dir KPlain "ab" 7; dir KPlain "ab" 17] "xaba") = false.
Proof. vm_compute. auto. Qed.
Example C13_ex_hyps : lf_input (of_string ("xab" ++ nl ++ "ab")) /\ in_sequence false (of_string ("xab" ++ nl ++ "ab")) [lp "ab" 7; lp "b" 17] 0 [1; 5].
Proof.
  split; [apply no_cr_lf_input; reflexivity|].
  assert (O : forall t i, starts false t (skipn i (of_string ("xab" ++ nl ++ "ab"))) = true -> text_at false (of_string ("xab" ++ nl ++ "ab")) t i).
  { intros t i H k x X. pose proof (proj1 (starts_spec _ _ _) H k x X) as (y & Y & Q). rewrite nth_error_skipn in Y. eauto. }
  simpl. unfold occurrence. simpl. repeat split; try lia; apply O; reflexivity.
Qed.

(** C14 *)
Definition abc : string := "a" ++ nl ++ "b" ++ nl ++ "b c".
Example C14_ex : ok (run None [dir KPlain "a" 1; dir KNext "b" 2] abc) = true
  /\ ok (run None [dir KPlain "a" 1; dir KNext "c" 2] abc) = false
  /\ ok (run None [dir KPlain "a" 1; dir KNext "a" 2] abc) = false.
Proof. vm_compute. auto. Qed.
Lemma settled_one (l : line (lit_lang false)) : l_kind l <> KNot -> l_kind l <> KDag -> settled [l].
Proof. intros H K [|x pre] l' E; [injection E as <-; auto|destruct pre; discriminate]. Qed.
Lemma anchored_two (x y : line (lit_lang false)) : places (l_kind x) -> ~ relative (l_kind x) -> anchored [x; y].
Proof.
  intros I D [|z pre] l post E DL; injection E as <- E.
  - congruence.
  - exists x. simpl; auto.
Qed.
Example extends_ex k : k <> KLabel -> k <> KCount 0 -> extends (of_string abc) false false [dir KPlain "a" 1] (dir k "b" 2).
Proof.
  intros K1 K2. split; [left; apply no_cr_lf_input; reflexivity|]. split.
  { intros l [<-|[<-|[]]]; split; simpl; auto; discriminate. }
  split; [left; discriminate|]. split; [apply anchored_two; [now left|intros [X|[X|X]]; discriminate]|]. split; [apply settled_one; discriminate|discriminate].
Qed.
(** C15 *)
Example C15_ex : ok (run None [dir KPlain "b" 1; dir KPlain "b" 2; dir KSame "c" 3] abc) = true
  /\ ok (run None [dir KPlain "a" 1; dir KSame "b" 2] abc) = false.
Proof. vm_compute. auto. Qed.

(** C16 *)
Example C16_ex : ok (run None [dir KPlain "a" 1; dir KEmpty "" 2; dir KNext "b" 3] ("a" ++ nl ++ nl ++ "b")) = true
  /\ ok (run None [dir KPlain "a" 1; dir KEmpty "" 2] ("a" ++ nl ++ "b")) = false
  /\ ok (run None [dir KPlain "a" 1; dir KEmpty "" 2] ("a x" ++ nl ++ nl ++ "b")) = false.
Proof. vm_compute. auto. Qed.
(** At the end of the input CHECK-EMPTY succeeds although there is no further line, any number of
    times. *)
Theorem C16_empty_at_end_refuted : exists out,
  passes false false None [dir KPlain "a" 1; dir KEmpty "" 2; dir KEmpty "" 3; dir KEmpty "" 4] (of_string "a") out.
Proof. apply ok_passes. reflexivity. Qed.

(** C17 *)
Example C17_ex : ok (run None [dir KPlain "a" 1; dir KNot "x" 2; dir KPlain "c" 3] "x a b c x") = true
  /\ ok (run None [dir KPlain "a" 1; dir KNot "b" 2; dir KPlain "c" 3] "x a b c x") = false
  /\ ok (run None [dir KNot "x" 0; dir KPlain "a" 1; dir KPlain "c" 3] "x a b c x") = false
  /\ ok (run None [dir KPlain "a" 1; dir KPlain "c" 3; dir KNot "x" 4] "x a b c x") = false.
Proof. vm_compute. auto. Qed.

(** C18 *)
Example C18_ex : ok (run None [dir KDag "b" 1; dir KDag "a" 2; dir KPlain "c" 3] "a b c") = true
  /\ spans_of (run None [dir KDag "b" 1; dir KDag "a" 2; dir KPlain "c" 3] "a b c") = [(0, 1); (2, 3); (4, 5)]
  /\ ok (run None [dir KDag "b" 1; dir KDag "z" 2] "a b c") = false.
Proof. vm_compute. auto. Qed.
(** Two directives with the same text are satisfied by one occurrence. *)
Theorem C18_same_text_twice_refuted : exists out,
  passes false false None [dir KDag "a" 1; dir KDag "a" 2] (of_string "a") out /\ length out = 1.
Proof. eexists. split; [eexists; split; [vm_compute; reflexivity|split; reflexivity]|reflexivity]. Qed.
(** A group can fail although its texts occur without overlap: here at 0 and at 2. *)
Theorem C18_incomplete_refuted :
  occurrence false (of_string "ababa") (lp "ab" 1) 0 5 0 /\ occurrence false (of_string "ababa") (lp "aba" 2) 0 5 2 /\
  ~ exists out, passes false false None [dir KDag "ab" 1; dir KDag "aba" 2] (of_string "ababa") out.
Proof.
  assert (O : forall t i, starts false t (skipn i (of_string "ababa")) = true -> text_at false (of_string "ababa") t i).
  { intros t i H k x X. pose proof (proj1 (starts_spec _ _ _) H k x X) as (y & Y & Q). rewrite nth_error_skipn in Y. eauto. }
  split; [|split].
  - unfold occurrence. simpl. repeat split; try lia; apply O; reflexivity.
  - unfold occurrence. simpl. repeat split; try lia; apply O; reflexivity.
  - rewrite <- ok_passes. vm_compute. discriminate.
Qed.
(** A CHECK after the group may not even touch its last match. *)
Theorem C18_touching_refuted :
  ~ exists out, passes false false None [dir KDag "a" 1; dir KPlain "b" 2] (of_string "ab") out.
Proof. rewrite <- ok_passes. vm_compute. discriminate. Qed.
(** --ignore-case does not reach CHECK-DAG. *)
Theorem C18_ignore_case_refuted :
  (exists out, passes true false None [mkLine (L:=lit_lang true) KPlain (lp "A" 1)] (of_string "a") out) /\
  ~ (exists out, passes true false None [mkLine (L:=lit_lang true) KDag (lp "A" 1)] (of_string "a") out).
Proof.
  split.
  - eexists _, _. split; [vm_compute; reflexivity|split; reflexivity].
  - intros (out & t & T & E & _). vm_compute in T. injection T as <-. discriminate.
Qed.

(** C19 *)
Example C19_ex : ok (run None [dir KPlain "x" 1; dir (KCount 3) "a" 2] "x aa a") = true
  /\ ok (run None [dir KPlain "x" 1; dir (KCount 4) "a" 2] "x aa a") = false.
Proof. vm_compute. auto. Qed.

(** C20, C22: a file with labels meets the hypotheses and passes. *)
Definition two_blocks : file (lit_lang false) :=
  mkFile [dir KPlain "p" 0] [(lp "f:" 1, [dir KNext "x" 2]); (lp "g:" 3, [dir KPlain "x" 4])].
Definition two_input : string := "p" ++ nl ++ "f:" ++ nl ++ "x" ++ nl ++ "g:" ++ nl ++ "y x".
Lemma lit_solid ci (p : lit) : lit_hd p <> LF -> solid (L:=lit_lang ci) p.
Proof.
  intros H b s e en m en' _ M. cbn [pm lit_lang pat env] in M. injection M as <- _.
  unfold lit_match. cbn [rstart rend].
  destruct (Nat.le_gt_cases s e) as [SE|SE].
  - pose proof (leftmost_spec ci b p e (e - s) s ltac:(lia)) as LS.
    destruct (leftmost ci b (lit_text p) e (e - s) s) as [i|]; split; try discriminate; auto.
    + intros i0 I. injection I as <-. cbn [i_span rstart]. destruct LS as [(_ & _ & T) _].
      destruct (T 0 (lit_hd p) eq_refl) as (y & Y & S). rewrite Nat.add_0_r in Y. exists y. split; auto.
      intros ->. apply H. destruct S as [S|(_ & u & U & S)]; auto. unfold LF in *. lia.
  - replace (e - s) with 0 by lia. simpl. split; auto. discriminate.
Qed.
Example C20_ex : lf_input (of_string two_input) /\ file_ok two_blocks /\
  (forall p, In p (map fst (f_blocks two_blocks)) -> solid (L:=lit_lang false) p) /\
  room (L:=lit_lang false) (of_string two_input) None two_blocks tt /\ anchored (f_prefix two_blocks) /\
  ok (run None (file_lines two_blocks) two_input) = true /\
  spans_of (run None (file_lines two_blocks) two_input) = [(0, 1); (2, 4); (5, 6); (7, 9); (12, 13)].
Proof.
  split; [apply no_cr_lf_input; reflexivity|]. split.
  { split; [|split].
    - intros l [<-|[]]; discriminate.
    - intros bl [<-|[<-|[]]] l [<-|[]]; discriminate.
    - intros l I. cbv in I. intuition; subst l; discriminate. }
  split; [intros p [<-|[<-|[]]]; apply lit_solid; discriminate|]. split.
  { right. intros p P i en' F. injection P as <-. exists 1. apply found_lit in F as (k & FO & ->); [|vm_compute; lia].
    assert (k = 2).
    { pose proof (leftmost_spec false (of_string two_input) (lp "f:" 1) 13 13 0 eq_refl) as LS.
      replace (leftmost false (of_string two_input) (lit_text (lp "f:" 1)) 13 13 0) with (Some 2) in LS by reflexivity.
      exact (first_unique _ _ _ _ _ _ _ FO LS). }
    subst k. cbn [i_span lit_info rstart]. split; [lia|]. split; [reflexivity|]. intros j J. lia. }
  split.
  { intros [|x pre] l post E D.
    - injection E as <- _. destruct D as [D|[D|D]]; discriminate.
    - injection E as <- E. destruct pre; discriminate. }
  vm_compute. auto.
Qed.

(** C21: checking can abort.  A CHECK-NOT after a CHECK-DAG group that matched only in part, behind
    the following match. *)
Theorem C21_dag_not_refuted :
  run None [dir KDag "b" 1; dir KDag "zzz" 2; dir KNot "q" 3; dir KPlain "a" 4] "a b" = Panic.
Proof. reflexivity. Qed.
(** A CHECK-NEXT that asks for a line behind the end of its block. *)
Theorem C21_next_refuted :
  run None [dir KLabel "a" 1; dir KPlain "x" 2; dir KNext "y" 3; dir KLabel "b" 4] ("a" ++ nl ++ "x" ++ nl ++ "b" ++ nl) = Panic.
Proof. reflexivity. Qed.
(** A label that begins where the line of the previous one ends. *)
Theorem C21_labels_refuted :
  run None [dir KLabel "a" 1; dir KLabel nl 2] ("a" ++ nl ++ "b") = Panic.
Proof. reflexivity. Qed.

(** C20: the text before a label on the first line belongs to no block: a forbidden text there is
    not seen. *)
Theorem C20_first_line_label_refuted : exists out,
  passes false true None [dir KNot "z" 1; dir KLabel "a" 2] (of_string "z a") out.
Proof. eexists _, _. split; [vm_compute; reflexivity|split; reflexivity]. Qed.

(** C23: inside the block of a label the implicit check only covers the region before the first
    match. *)
Theorem C23_labels_refuted :
  exists out, passes false false (Some (lp "x" 9)) [dir KLabel "f" 1; dir KPlain "a" 2; dir KPlain "b" 3] (of_string ("f" ++ nl ++ "a x b")) out.
Proof. eexists _, _. split; [vm_compute; reflexivity|split; reflexivity]. Qed.
(** It does not look between the matches of a CHECK-COUNT. *)
Theorem C23_count_refuted :
  exists out, passes false false (Some (lp "x" 9)) [dir (KCount 2) "a" 2] (of_string "a x a") out.
Proof. eexists _, _. split; [vm_compute; reflexivity|split; reflexivity]. Qed.
Example C23_ex : ok (run (Some (lp "x" 9)) [dir KPlain "a" 2; dir KPlain "b" 3] "a b") = true
  /\ ok (run (Some (lp "x" 9)) [dir KPlain "a" 2; dir KPlain "b" 3] "a x b") = false
  /\ ok (run (Some (lp "x" 9)) [dir KPlain "a" 2; dir KPlain "b" 3] "a b x") = false
  /\ ok (run (Some (lp "x" 9)) [dir KPlain "a" 2; dir KPlain "b" 3] "x a b") = false.
Proof. vm_compute. auto. Qed.

(** C24 *)
Example C24_ex : exists secs, compile (L:=lit_lang false) None (file_lines two_blocks) = Val secs /\ length secs = 3.
Proof. eexists. split; [vm_compute; reflexivity|reflexivity]. Qed.
