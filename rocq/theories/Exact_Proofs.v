(** From what a check file asks to the run that passes. *)
From Coq Require Import String Permutation Sorted.
From Verif Require Import Base Text_Model Text_Spec Cursor_Model Cursor_Spec Check_Model Program_Model Check_Spec File_Spec File_Proofs Lit_Model Lit_Spec Lit_Proofs Lit_Props Env_Model Num_Model Gram_Model Parse_Model
  Parse_Spec Parse_Props Pat_Spec Regex_Model Smart_Model Smart_Spec Smart_Static Smart_Parts Smart_Props Chain_Spec Chain_Proofs Chain_Fixed Chain_Props PatSet_Model PatSet_Spec PatSet_Proofs PatSet_Dag PatSet_Props
  Choice_Spec Choice_Parts Choice_Props Sweep_Spec Sweep_Props Sim_Proofs Tame_Proofs Tame_File Whole_Model Whole_Spec Whole_Props Demand_Spec Demand_Proofs Demand_Props Scan_Spec Scan_Props Exact_Spec.
Open Scope string_scope.
Open Scope list_scope.
Open Scope nat_scope.
Ltac splits := repeat match goal with |- _ /\ _ => split end.

Section Exact.
Context (T : set_engine) (OK : set_ok T) (fuel rounds : nat) (o : options).
Notation E := ascii_engine.
Notation L := (whole_lang E T fuel rounds o).
Notation ci := (o_ci o).
Notation strict := (o_strict o).
Notation Tm := (tame L (e0 o) false).

(** * Single patterns *)
Lemma sub_found b d t s e E0 i E' : d_pat d = PLit t -> t <> [] -> finds o b d s e E0 i E' ->
  try_match E ci fuel b (d_line d) (d_at d) (MSub E (as_seen strict t)) (mkRange s e) E0 = Some (Val (mkRes Good (Some i), E')).
Proof.
  intros P Nt H. cbn [try_match rstart rend]. destruct H as [t' i P' Le Ls Li Tx First|i j cs vs N _ _ _ _ _|i j F E' D _ _ _ _ _ _].
  - assert (t' = t) by congruence. subst t'. apply (seen_nonempty o) in Nt. destruct (as_seen strict t) as [|c r] eqn:Es; [easy|].
    pose proof (leftmost_spec ci b (mkLit c r 0) e (e - s) s) as Sp. change (lit_text (mkLit c r 0)) with (c :: r) in Sp. cbn [length] in Li. specialize (Sp ltac:(lia)).
    destruct (leftmost ci b (c :: r) e (e - s) s) as [k|].
    + destruct Sp as [(A1 & A2 & A3) Min]. change (lit_text (mkLit c r 0)) with (c :: r) in *. assert (k = i) as ->; [|reflexivity].
      assert (k <= i) by (apply Min; unfold occurrence; change (lit_text (mkLit c r 0)) with (c :: r); splits; auto). destruct (Nat.le_gt_cases i k); [lia|]. elim (First k); auto; lia.
    + elim (Sp i). unfold occurrence. change (lit_text (mkLit c r 0)) with (c :: r). auto.
  - unfold is_text in N. rewrite P in N. discriminate.
  - rewrite P in D. discriminate.
Qed.
Lemma pieces_choice b d s e E0 i E' : is_text d = false -> finds o b d s e E0 i E' -> has_substitution d = false ->
  choice ci b (parts_of (d_pat d)) s e (d_at d) E0 (mkRes Good (Some i), E') /\ s <= e <= length b.
Proof.
  intros Nt H Ns. unfold has_substitution in Ns. destruct H as [t i P|i j cs vs N D B Fp Pf V|i j F E' D]; [unfold is_text, only_text in Nt; rewrite P in Nt; discriminate| |congruence].
  split; [|exact B]. now apply ch_found with cs.
Qed.
Notation compile_of d := (if d_literal d then compile_literal E strict (d_pat d) else compile_pattern E ci strict (d_pat d)).
Lemma sub_compiled d t : d_pat d = PLit t -> t <> [] -> d_literal d = true \/ ~ blank t -> compile_of d = Val (MSub E (as_seen strict t)).
Proof.
  intros P Nt W. rewrite P. destruct (d_literal d); [cbn; now rewrite literal_text_is|]. destruct W as [W|W]; [discriminate|].
  unfold compile_pattern. cbn [compact]. unfold from_literal. rewrite (not_white t W). destruct t as [|z t]; [congruence|]. now rewrite literal_text_is.
Qed.
Lemma searchable_substitution d : searchable o d -> existsb is_dynamic (parts_of (d_pat d)) = true -> exists l, d_pat d = PParts l /\ d_literal d = false.
Proof.
  intros [t P Nt W|x y P Lt Bd|l P Lt F Nl Nd|l P Lt Dy F] H; rewrite P in H; try discriminate; [cbn [parts_of] in H; apply (Demand_Proofs.static_not_dynamic o) in F; congruence|]. eauto.
Qed.
Lemma finds_bounds b d s e E0 i E' : finds o b d s e E0 i E' -> s <= rstart (i_span i) <= rend (i_span i) /\ rend (i_span i) <= e /\ e <= length b.
Proof.
  intros [t i0 P Le Ls Li Tx First|i0 j cs vs N D B (A1 & A2 & P & _) Pf V|i0 j F E1 D A1 A2 A3 A4]; cbn [i_span rstart rend]; [lia| |lia]. apply pieces_bounds in P as [P1 P2]; lia.
Qed.
Lemma surely_pattern b d m s e E0 i E' : searchable o d -> compile_of d = Val m -> surely o fuel b d s e E0 i E' ->
  try_match E ci fuel b (d_line d) (d_at d) m (mkRange s e) E0 = Some (Val (mkRes Good (Some i), E')) /\ s <= rstart (i_span i) <= rend (i_span i) /\ rend (i_span i) <= e /\ e <= length b.
Proof.
  intros Sd C H. destruct H as [i E' Ns H|gs i j E' Hs Ct B Sc].
  - split; [|exact (finds_bounds _ _ _ _ _ _ _ H)]. destruct Sd as [t P Nt W|x y P Lt Bd|l P Lt F Nl Nd|l P Lt Dy F].
    + rewrite (sub_compiled d t P Nt W) in C. injection C as <-. now apply sub_found.
    + rewrite P, Lt in C. destruct (regex_chosen_pattern ci strict fuel x y Bd) as (m' & C' & M). rewrite C in C'. injection C' as <-.
      destruct (pieces_choice b d s e E0 i E') as [Ch Bs]; auto; [unfold is_text; now rewrite P|]. rewrite P in Ch. now apply M.
    + rewrite P, Lt in C. destruct (pattern_chosen ci strict fuel l F Nl Nd) as (m' & C' & M). rewrite C in C'. injection C' as <-.
      destruct (pieces_choice b d s e E0 i E') as [Ch Bs]; auto; [unfold is_text, only_text; now rewrite P|]. rewrite P in Ch. now apply M.
    + unfold has_substitution in Ns. rewrite P in Ns. cbn [parts_of] in Ns. congruence.
  - unfold has_substitution in Hs. destruct (searchable_substitution d Sd Hs) as (l & P & Lt). rewrite P, Lt in C. rewrite P in Hs, Ct. cbn [parts_of] in Hs, Ct.
    pose proof (proj2 (scan_exact ci strict fuel l gs m b (d_line d) (d_at d) s e E0 Ct Hs C (proj1 B) (proj2 B) _) (ex_intro _ _ (conj Sc eq_refl))) as R.
    cbn [scanned] in R. split; [exact R|].
    assert (C' : compile_of d = Val m) by (rewrite P, Lt; exact C).
    destruct (pattern_answer fuel o d m b s e E0 _ Sd C' B R) as [(i' & Er & F & A1 & A2)|(er & Er & Le)]; cbn [fst] in Er; [|discriminate Er]. injection Er as <-. exact (finds_bounds _ _ _ _ _ _ _ F).
Qed.
(** ... and it finds nothing else. *)
Lemma pattern_surely b d m s e E0 i E' : searchable o d -> (has_substitution d = true -> exists gs, cut_parts ci strict (parts_of (d_pat d)) gs) -> compile_of d = Val m -> s <= e <= length b ->
  try_match E ci fuel b (d_line d) (d_at d) m (mkRange s e) E0 = Some (Val (mkRes Good (Some i), E')) -> surely o fuel b d s e E0 i E'.
Proof.
  intros Sd Ct C B R. destruct (has_substitution d) eqn:Hs.
  - destruct (Ct eq_refl) as (gs & Cg). unfold has_substitution in Hs. destruct (searchable_substitution d Sd Hs) as (l & P & Lt). rewrite P, Lt in C. pose proof Cg as Cg'. rewrite P in Cg'. rewrite P in Hs. cbn [parts_of] in *.
    destruct (proj1 (scan_exact ci strict fuel l gs m b (d_line d) (d_at d) s e E0 Cg' Hs C (proj1 B) (proj2 B) _) R) as (w & Sc & Z). destruct w as [[[i1 j1] E1]|]; unfold scanned, failed in Z; [|discriminate].
    injection Z as -> ->. apply sr_scan with gs; auto. unfold has_substitution. now rewrite P.
  - destruct (pattern_answer fuel o d m b s e E0 _ Sd C B R) as [(i' & Er & F & _)|(er & Er & Le)]; cbn [fst] in Er; [|discriminate Er]. injection Er as <-. now apply sr_found.
Qed.
Lemma label_static d : labelled_by o d -> has_substitution d = false.
Proof.
  intros Ld. unfold has_substitution. destruct Ld as [t c r0 P _ _|x y P _ _|l P Fs _ _ _ _]; rewrite P; [reflexivity..|]. cbn [parts_of]. now apply (Demand_Proofs.static_not_dynamic o).
Qed.
Lemma surely_label b d m s e E0 i E' : labelled_by o d -> compile_static E ci strict (d_pat d) = Val m -> surely o fuel b d s e E0 i E' ->
  try_match E ci fuel b (d_line d) (d_at d) m (mkRange s e) E0 = Some (Val (mkRes Good (Some i), E')) /\ s <= rstart (i_span i) <= rend (i_span i) /\ rend (i_span i) <= e /\ e <= length b.
Proof.
  intros Ld C H. pose proof (label_static d Ld) as Hn. destruct H as [i E' Ns H|gs i j E' Hs _ _ _]; [|congruence].
  split; [|exact (finds_bounds _ _ _ _ _ _ _ H)]. destruct Ld as [t c r0 P Es Nc|x y P Bd Hl|l P F Nl Nd Nc Hl].
  - assert (Nt : t <> []) by (intros ->; rewrite <- (app_nil_r (as_seen strict [])) in Es; unfold as_seen, canonicalize_horizontal_whitespace in Es; destruct strict; discriminate).
    rewrite P in C. unfold compile_static in C. cbn [compact] in C. rewrite literal_text_is in C by exact Nt. injection C as <-. now apply sub_found.
  - rewrite P in C. destruct (regex_chosen_pattern ci strict fuel x y Bd) as (m' & C' & M). assert (m' = m) as ->.
    { unfold compile_static in C. unfold compile_pattern in C'. cbn [compact] in C, C'. rewrite C in C'. now injection C'. }
    destruct (pieces_choice b d s e E0 i E') as [Ch Bs]; auto; [unfold is_text; now rewrite P|]. rewrite P in Ch. now apply M.
  - rewrite P in C. destruct (pattern_chosen ci strict fuel l F Nl Nd) as (m' & C' & M). assert (m' = m) as ->.
    { unfold compile_static in C. unfold compile_pattern in C'. rewrite (compact_regex ci l F Nl), Nc in C, C'. rewrite C in C'. now injection C'. }
    destruct (pieces_choice b d s e E0 i E') as [Ch Bs]; auto; [unfold is_text, only_text; now rewrite P|]. rewrite P in Ch. now apply M.
Qed.
(** * Compiling *)
Lemma searchable_compiles d : searchable o d -> (has_substitution d = true -> exists gs, cut_parts ci strict (parts_of (d_pat d)) gs) -> exists m, compile_of d = Val m.
Proof.
  intros Sd Fv. destruct Sd as [t P Nt W|x y P Lt Bd|l P Lt F Nl Nd|l P Lt Dy F].
  - rewrite (sub_compiled d t P Nt W). eauto.
  - rewrite P, Lt. destruct (regex_chosen_pattern ci strict fuel x y Bd) as (m & C & _). eauto.
  - rewrite P, Lt. destruct (pattern_chosen ci strict fuel l F Nl Nd) as (m & C & _). eauto.
  - unfold has_substitution in Fv. rewrite P in Fv. cbn [parts_of] in Fv. rewrite P, Lt. destruct (Fv Dy) as (gs & Ct). exact (scan_compiles ci strict l gs Ct Dy).
Qed.
Lemma label_compiles d : labelled_by o d -> exists m, compile_static E ci strict (d_pat d) = Val m.
Proof.
  intros [t c r0 P Es Nc|x y P Bd Hl|l P F Nl Nd Nc Hl]; rewrite P.
  - assert (Nt : t <> []) by (intros ->; rewrite <- (app_nil_r (as_seen strict [])) in Es; unfold as_seen, canonicalize_horizontal_whitespace in Es; destruct strict; discriminate).
    unfold compile_static. cbn [compact]. rewrite literal_text_is by exact Nt. cbn [bind]. eauto.
  - destruct (regex_chosen_pattern ci strict fuel x y Bd) as (m & C & _). exists m. unfold compile_static. unfold compile_pattern in C. cbn [compact] in *. exact C.
  - destruct (pattern_chosen ci strict fuel l F Nl Nd) as (m & C & _). exists m. unfold compile_static. unfold compile_pattern in C. rewrite (compact_regex ci l F Nl), Nc in *. exact C.
Qed.
Definition compiles_dir (d : dir) : Prop :=
  match d_kind d with
  | KNot | KDag | KEmpty => True
  | KLabel => exists m, compile_static E ci strict (d_pat d) = Val m
  | _ => exists m, compile_of d = Val m
  end.
Lemma compile_each_ok pos cs : forall n, Forall compiles_dir (dirs pos n cs) -> exists ls, compile_each E T fuel rounds o pos n cs = Val ls.
Proof.
  induction cs as [|c cs IH]; intros n F; cbn [compile_each dirs] in *; [eauto|]. inversion F as [|? ? C F']; subst. destruct (IH _ F') as (ls & ->).
  assert (X : exists l, compile_one E T fuel rounds o (pos n) c = Val l); [|destruct X as (l & ->); cbn [bind]; eauto].
  unfold compile_one. unfold compiles_dir in C. cbn [d_kind d_pat d_literal] in C.
  destruct (cl_kind c); cbn [kind_of directive] in *; try (cbn [bind]; eauto; fail); destruct C as (m & ->); cbn [bind]; eauto.
Qed.
End Exact.
