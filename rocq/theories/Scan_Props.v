(** C83: how a pattern with substitutions is searched for. *)
From Coq Require Import String.
From Verif Require Import Base Text_Model Cursor_Model Check_Model Lit_Model Lit_Spec Env_Model Num_Model Gram_Model Parse_Model
  Regex_Model Regex_Spec Regex_Proofs Regex_Engine Regex_Frame Smart_Model Smart_Spec Smart_Static Smart_Parts Smart_Props Chain_Spec Chain_Proofs Chain_Search Chain_Fixed Chain_Props Choice_Spec Choice_Proofs Choice_Parts Choice_Props Scan_Spec Scan_Proofs.
Open Scope string_scope.
Open Scope list_scope.
Open Scope nat_scope.
Ltac splits := repeat match goal with |- _ /\ _ => split end.

(** The pattern compiles. *)
Theorem scan_compiles : forall ci strict l gs, cut_parts ci strict l gs -> existsb is_dynamic l = true ->
  exists m, compile_pattern ascii_engine ci strict (PParts l) = Val m.
Proof.
  intros ci strict l gs Ct D. destruct (cut_lowered ci strict l gs Ct) as (ops & L & _). unfold compile_pattern. rewrite (compact_dynamic l D), L. cbn [bind]. eauto.
Qed.
Print Assumptions scan_compiles.

(** The search returns what the scan finds, and nothing else.  [fuel]: how deep variables and operations may be nested. *)
Theorem scan_exact : forall ci strict fuel l gs m b line at_ s e E, cut_parts ci strict l gs -> existsb is_dynamic l = true ->
  compile_pattern ascii_engine ci strict (PParts l) = Val m -> s <= e -> e <= List.length b ->
  forall r, try_match ascii_engine ci fuel b line at_ m (mkRange s e) E = Some (Val r) <-> exists w, scan ci fuel line b e gs s E w /\ r = scanned at_ E w.
Proof.
  intros ci strict fuel l gs m b line at_ s e E Ct D C Ls Le r.
  destruct (dynamic_compiled _ _ _ _ D C) as (ops & -> & Lo). destruct (cut_lowered ci strict l gs Ct) as (ops' & Lo' & F). rewrite Lo in Lo'. injection Lo' as <-.
  assert (N : gs <> []) by (intros Z; subst gs; inversion Ct; subst; discriminate).
  destruct F as [|g o bs gs' ops So F]; [easy|]. cbn [try_match]. unfold smart_match. cbn [rstart rend]. split.
  - destruct (search_rounds _ _ _ _ _ _ _ _ _ _ _ _) as [x|] eqn:S0; [|discriminate]. intros H. injection H as H. destruct x as [x| |]; try discriminate. cbn [bind] in H. injection H as <-.
    apply (rounds_scan ci fuel b line e Le g o bs gs' ops E So F _ _ _ (fun _ => Ls)) in S0 as (w & Sc & An). exists w. split; [exact Sc|]. now apply answers_result.
  - intros (w & Sc & ->). destruct (scan_rounds ci fuel b line e Le g o bs gs' ops So F s E w (fun _ => Ls) Sc) as (n & r & Rn & An).
    destruct (search_rounds ascii_engine ci fuel b line (smart_rounds b) o (bs ++ ops) s e false E) as [x|] eqn:S0; [|rewrite (search_unending ci fuel b line e o _ s E Ls Le S0 n) in Rn; discriminate].
    assert (x = Val r) as ->.
    { pose proof (rounds_more ci fuel b line e Le _ _ _ _ _ _ _ Rn (Nat.max n (smart_rounds b)) ltac:(lia)) as X. pose proof (rounds_more ci fuel b line e Le _ _ _ _ _ _ _ S0 (Nat.max n (smart_rounds b)) ltac:(lia)) as Y. congruence. }
    cbn [bind]. now rewrite (answers_result b at_ E r w An).
Qed.
Print Assumptions scan_exact.
(** So there is at most one thing that it may find. *)
Theorem scan_once : forall ci strict fuel line l gs b s e E, cut_parts ci strict l gs -> existsb is_dynamic l = true -> s <= e -> e <= List.length b ->
  forall w w', scan ci fuel line b e gs s E w -> scan ci fuel line b e gs s E w' -> w = w'.
Proof.
  intros ci strict fuel line l gs b s e E Ct D Ls Le w w' H H'. destruct (scan_compiles ci strict l gs Ct D) as (m & C).
  pose proof (proj2 (scan_exact ci strict fuel l gs m b line 0 s e E Ct D C Ls Le _) (ex_intro _ w (conj H eq_refl))) as X.
  pose proof (proj2 (scan_exact ci strict fuel l gs m b line 0 s e E Ct D C Ls Le _) (ex_intro _ w' (conj H' eq_refl))) as Y.
  rewrite X in Y. destruct w as [[[i j] F]|], w' as [[[i' j'] F']|]; unfold scanned, failed in Y; try discriminate; [injection Y as -> -> ->|]; reflexivity.
Qed.
Print Assumptions scan_once.

(** "[[R:r[0-9]]]=[[#X+1]]" *)
Definition register : list part := [QMatch (MSubst (var "R") (Some (str_of "r[0-9]"))); QLit (str_of "="); QMatch (MNumeric None None (Some (PBin OAdd (PVar (var "X")) (PNum 1))))].
Definition register_cut : list seg := [Fixed [QMatch (MSubst (var "R") (Some (str_of "r[0-9]"))); QLit (str_of "=")]; Shown None (PBin OAdd (PVar (var "X")) (PNum 1))].
Definition register_env : @bindings value := env_from_config [(var "X", VNum (ENum (mkNum None 6)))].
Lemma register_parts : cut_parts false false register register_cut.
Proof.
  change register with ([QMatch (MSubst (var "R") (Some (str_of "r[0-9]"))); QLit (str_of "=")] ++ [QMatch (MNumeric None None (Some (PBin OAdd (PVar (var "X")) (PNum 1))))]).
  apply ct_run; [|right; eauto|apply ct_sub; [constructor|apply ct_nil]].
  unfold fixed_run. splits; [discriminate| | | | |].
  - repeat constructor. eapply st_def; [vm_compute; reflexivity|]. vm_compute. repeat constructor.
  - intros f v [Z|[Z|[]]]; discriminate.
  - vm_compute. repeat constructor. intros [].
  - intros t [Z|[Z|[]]]; try discriminate. injection Z as <-. unfold plain_literal. splits; try discriminate; [right; intros [Z|[]]; discriminate|]. intros c [<-|[]]; reflexivity.
  - intros t [Z|[Z|[]]]; discriminate.
Qed.
(** is found in "r1=5 r2=7", at its second register, if X is 6; R is "r2" then. *)
Example register_scan : exists E', scan false 3 1%Z (str_of "r1=5 r2=7") 9 register_cut 0 register_env (Some (5, 9, E')) /\ look_up E' (str_of "R") = Some (VStr (str_of "r2")).
Proof.
  assert (exists m, compile_pattern ascii_engine false false (PParts register) = Val m) as (m & C) by (eapply scan_compiles; [exact register_parts|reflexivity]).
  assert (X : exists E', try_match ascii_engine false 3 (str_of "r1=5 r2=7") 1%Z 0 m (mkRange 0 9) register_env = Some (Val (scanned 0 register_env (Some (5, 9, E')))) /\ look_up E' (str_of "R") = Some (VStr (str_of "r2"))).
  { eexists. split; [vm_compute in C; injection C as <-; vm_compute; reflexivity|]. vm_compute. reflexivity. }
  destruct X as (E' & X & V).
  apply (scan_exact false false 3 register _ m (str_of "r1=5 r2=7") 1%Z 0 0 9 register_env register_parts eq_refl C (Nat.le_0_l 9) (le_n 9)) in X as (w & Sc & Z).
  exists E'. split; [|exact V]. destruct w as [[[i j] F]|]; unfold scanned in Z; [injection Z as <- <- <-; exact Sc|discriminate].
Qed.
(** "[[#N:]]: [[#%.2u,D:]]/[[#N+1]]": a number, and one of two digits, are defined and the first one is used. *)
Definition pages : list part :=
  [QMatch (MNumeric None (Some (var "N")) None); QLit (str_of ": "); QMatch (MNumeric (Some (Unsigned 2)) (Some (var "D")) None); QLit (str_of "/");
   QMatch (MNumeric None None (Some (PBin OAdd (PVar (var "N")) (PNum 1))))].
Definition pages_cut : list seg :=
  [Fixed [QMatch (MNumeric None (Some (var "N")) None); QLit (str_of ": "); QMatch (MNumeric (Some (Unsigned 2)) (Some (var "D")) None); QLit (str_of "/")]; Shown None (PBin OAdd (PVar (var "N")) (PNum 1))].
Lemma pages_parts : cut_parts false false pages pages_cut.
Proof.
  change pages with ([QMatch (MNumeric None (Some (var "N")) None); QLit (str_of ": "); QMatch (MNumeric (Some (Unsigned 2)) (Some (var "D")) None); QLit (str_of "/")] ++ [QMatch (MNumeric None None (Some (PBin OAdd (PVar (var "N")) (PNum 1))))]).
  apply ct_run; [|right; eauto|apply ct_sub; [constructor|apply ct_nil]].
  unfold fixed_run. splits; [discriminate| |discriminate| | |].
  - repeat constructor; cbv; lia.
  - vm_compute. repeat constructor; cbn; intuition discriminate.
  - intros t [Z|[Z|[Z|[Z|[]]]]]; try discriminate; injection Z as <-; unfold plain_literal; splits; try discriminate; try (right; cbn; intuition discriminate); intros c I; cbn in I; intuition (subst; reflexivity).
  - intros t [Z|[Z|[Z|[Z|[]]]]]; discriminate.
Qed.
(** It is found in "7: 05/9, 41: 12/42" at its second page: N is 41 then, and D is 12 with its format. *)
Example pages_scan : exists E', scan false 3 1%Z (str_of "7: 05/9, 41: 12/42") 18 pages_cut 0 (env_from_config []) (Some (9, 18, E')) /\
  look_up E' (str_of "N") = Some (VNum (ENum (mkNum None 41))) /\ look_up E' (str_of "D") = Some (VNum (ENum (mkNum (Some (Unsigned 2)) 12))).
Proof.
  assert (exists m, compile_pattern ascii_engine false false (PParts pages) = Val m) as (m & C) by (eapply scan_compiles; [exact pages_parts|reflexivity]).
  assert (X : exists E', try_match ascii_engine false 3 (str_of "7: 05/9, 41: 12/42") 1%Z 0 m (mkRange 0 18) (env_from_config []) = Some (Val (scanned 0 (env_from_config []) (Some (9, 18, E')))) /\
    look_up E' (str_of "N") = Some (VNum (ENum (mkNum None 41))) /\ look_up E' (str_of "D") = Some (VNum (ENum (mkNum (Some (Unsigned 2)) 12)))).
  { eexists. split; [vm_compute in C; injection C as <-; vm_compute; reflexivity|]. split; vm_compute; reflexivity. }
  destruct X as (E' & X & V).
  apply (scan_exact false false 3 pages _ m (str_of "7: 05/9, 41: 12/42") 1%Z 0 0 18 (env_from_config []) pages_parts eq_refl C (Nat.le_0_l 18) (le_n 18)) in X as (w & Sc & Z).
  exists E'. split; [|exact V]. destruct w as [[[i j] F]|]; unfold scanned in Z; [injection Z as <- <- <-; exact Sc|discriminate].
Qed.
(** "[[#N:]]-[[#M:N+1]]": the number after the dash should be the next one. *)
Definition span_parts : list part :=
  [QMatch (MNumeric None (Some (var "N")) None); QLit (str_of "-"); QMatch (MNumeric None (Some (var "M")) (Some (PBin OAdd (PVar (var "N")) (PNum 1))))].
Definition span_cut : list seg := [Fixed [QMatch (MNumeric None (Some (var "N")) None); QLit (str_of "-")]; Given None (var "M") (PBin OAdd (PVar (var "N")) (PNum 1))].
Lemma span_parts_cut : cut_parts false false span_parts span_cut.
Proof.
  change span_parts with ([QMatch (MNumeric None (Some (var "N")) None); QLit (str_of "-")] ++ [QMatch (MNumeric None (Some (var "M")) (Some (PBin OAdd (PVar (var "N")) (PNum 1))))]).
  apply ct_run; [|right; eauto|apply ct_given; [cbv; lia|vm_compute; repeat constructor|apply ct_nil]].
  unfold fixed_run. splits; [discriminate| |discriminate| | |].
  - repeat constructor; cbv; lia.
  - vm_compute. repeat constructor. intros [].
  - intros t [Z|[Z|[]]]; try discriminate. injection Z as <-. unfold plain_literal. splits; try discriminate; [right; intros [Z|[]]; discriminate|]. intros c [<-|[]]; reflexivity.
  - intros t [Z|[Z|[]]]; discriminate.
Qed.
(** It is found in "x 3-9 y", where it is not; M is 9 then. *)
Example span_scan : exists E', scan false 3 1%Z (str_of "x 3-9 y") 7 span_cut 0 (env_from_config []) (Some (2, 5, E')) /\
  look_up E' (str_of "N") = Some (VNum (ENum (mkNum None 3))) /\ look_up E' (str_of "M") = Some (VNum (ENum (mkNum (Some (Unsigned 0)) 9))).
Proof.
  assert (exists m, compile_pattern ascii_engine false false (PParts span_parts) = Val m) as (m & C) by (eapply scan_compiles; [exact span_parts_cut|reflexivity]).
  assert (X : exists E', try_match ascii_engine false 3 (str_of "x 3-9 y") 1%Z 0 m (mkRange 0 7) (env_from_config []) = Some (Val (scanned 0 (env_from_config []) (Some (2, 5, E')))) /\
    look_up E' (str_of "N") = Some (VNum (ENum (mkNum None 3))) /\ look_up E' (str_of "M") = Some (VNum (ENum (mkNum (Some (Unsigned 0)) 9)))).
  { eexists. split; [vm_compute in C; injection C as <-; vm_compute; reflexivity|]. split; vm_compute; reflexivity. }
  destruct X as (E' & X & V).
  apply (scan_exact false false 3 span_parts _ m (str_of "x 3-9 y") 1%Z 0 0 7 (env_from_config []) span_parts_cut eq_refl C (Nat.le_0_l 7) (le_n 7)) in X as (w & Sc & Z).
  exists E'. split; [|exact V]. destruct w as [[[i j] F]|]; unfold scanned in Z; [injection Z as <- <- <-; exact Sc|discriminate].
Qed.
(** Not so: a number that is defined may have more digits than its precision.  The precision is the least number of digits, and the
    number of "[[#%.2u,D:]]" is looked for as such; but the search ends with an error when it is "123" (in a pattern without
    substitutions it is 123, see C69). *)
Theorem long_number_refuted : let d := QMatch (MNumeric (Some (Unsigned 2)) (Some (var "D")) None) in
  at_start false false (PParts [d; QLit (str_of " "); QMatch (MSubst (var "D") None)]) [] (str_of "123 123") = Some Err /\
  exists E', at_start false false (PParts [d]) [] (str_of "123 123") = Some (Val (mkRes Good (Some (mkInfo (mkRange 0 3) 0 0)), E')) /\ look_up E' (str_of "D") = Some (VNum (ENum (mkNum (Some (Unsigned 2)) 123))).
Proof. split; [vm_compute; reflexivity|]. eexists. split; vm_compute; reflexivity. Qed.
Print Assumptions long_number_refuted.
(** Pieces do not make room for those that follow: "{{a+}}[[X]]" is not found in "aa" if X is "a", although its first part may
    take the first letter and the second part the second one. *)
Definition greedy : list part := [QRegex (str_of "a+"); QMatch (MSubst (var "X") None)].
Theorem greedy_refuted : exists b defs,
  at_start false false (PParts greedy) defs b = Some (Val (failed ENone, env_from_config defs)) /\
  exists F, linked false b (List.length b) 1 greedy (env_from_config defs) 0 (List.length b) F.
Proof.
  exists (str_of "aa"), [(var "X", VStr (str_of "a"))]. split; [vm_compute; reflexivity|]. eexists.
  eapply lk_piece with (k := 1) (vs := []); [|constructor|].
  - eapply pc_regex; [reflexivity|]. cbn [x_re]. eapply lg_cat; [|apply lg_eps]. eapply lg_rep with (n := 1); [lia|discriminate|]. eapply ln_more; [|apply ln_none]. eapply lg_set; [cbn; lia|reflexivity|reflexivity].
  - eapply lk_text with (k := 2); [apply su_var|apply en_user|apply tm_here; reflexivity|reflexivity| |apply lk_nil].
    cbn [x_re]. eapply lg_cat; [|apply lg_eps]. eapply lg_set; [cbn; lia|reflexivity|reflexivity].
Qed.
Print Assumptions greedy_refuted.
