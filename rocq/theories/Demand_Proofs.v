(** What the matchers of a whole run find, in terms of Demand_Spec. *)
From Coq Require Import String Permutation Sorted.
From Verif Require Import Base Text_Model Text_Spec Cursor_Model Cursor_Spec Check_Model Program_Model Check_Spec File_Spec Lit_Model Lit_Spec Lit_Proofs Lit_Props Env_Model Num_Model Gram_Model Parse_Model
  Parse_Spec Pat_Spec Regex_Model Smart_Model Smart_Spec Smart_Static Smart_Parts Smart_Props Chain_Spec Chain_Props PatSet_Model PatSet_Spec PatSet_Proofs PatSet_Dag PatSet_Props Choice_Spec Choice_Parts Choice_Props Sweep_Spec Sweep_Props Sim_Proofs Tame_Proofs Tame_File Whole_Model Whole_Spec Whole_Props Demand_Spec.
Open Scope list_scope.
Open Scope nat_scope.
Ltac splits := repeat match goal with |- _ /\ _ => split end.

Section Demand.
Context (T : set_engine) (OK : set_ok T) (fuel rounds : nat) (o : options).
Notation E := ascii_engine.
Notation L := (whole_lang E T fuel rounds o).
Notation ci := (o_ci o).
Notation strict := (o_strict o).

(** * Single patterns *)
Definition answer (b : bytes) (d : dir) (s e : nat) (E0 : vars) (r : mresult * vars) : Prop :=
  (exists i, fst r = mkRes Good (Some i) /\ finds o b d s e E0 i (snd r) /\ s <= rstart (i_span i) <= rend (i_span i) /\ rend (i_span i) <= e) \/
  exists er, fst r = failed er /\ labelled er = true.
Lemma sub_answer b d t s e E0 : d_pat d = PLit t -> t <> [] -> s <= e <= length b ->
  exists r, try_match E ci fuel b (d_line d) (d_at d) (MSub E (as_seen strict t)) (mkRange s e) E0 = Some (Val r) /\ answer b d s e E0 r.
Proof.
  intros P Nt B. cbn [try_match rstart rend]. eexists. split; [reflexivity|].
  apply (seen_nonempty o) in Nt. destruct (as_seen strict t) as [|c r] eqn:Es; [easy|].
  pose proof (leftmost_spec ci b (mkLit c r 0) e (e - s) s ltac:(lia)) as Sp. change (lit_text (mkLit c r 0)) with (c :: r) in Sp.
  destruct (leftmost ci b (c :: r) e (e - s) s) as [i|]; [left|right; eexists; split; reflexivity].
  destruct Sp as [(A1 & A2 & A3) Min]. change (lit_text (mkLit c r 0)) with (c :: r) in *. eexists. split; [reflexivity|]. cbn [snd i_span rstart rend]. split; [|lia].
  rewrite <- Es in *. apply fi_text; auto; [lia|]. intros k K Tk. assert (i <= k); [|lia]. apply Min. unfold occurrence. change (lit_text (mkLit c r 0)) with (c :: r). rewrite <- Es. splits; auto; lia.
Qed.
Lemma static_not_dynamic l : Forall (static ci) l -> existsb is_dynamic l = false.
Proof. induction 1 as [|q l H F IH]; [reflexivity|]. cbn [existsb]. rewrite IH. now destruct H. Qed.
Lemma pieces_answer b d s e E0 r : is_text d = false -> existsb is_dynamic (parts_of (d_pat d)) = false -> s <= e <= length b ->
  choice ci b (parts_of (d_pat d)) s e (d_at d) E0 r -> answer b d s e E0 r.
Proof.
  intros N D B [H|i j cs vs H Pf V|i j cs H Pf V]; [right; eexists; split; reflexivity| |right; eexists; split; reflexivity].
  left. eexists. split; [reflexivity|]. cbn [snd i_span rstart rend]. split; [now apply fi_pieces with cs|]. destruct H as (A1 & A2 & P & _). apply pieces_bounds in P as [P1 P2]; lia.
Qed.
Lemma pattern_answer d m b s e E0 r : searchable o d -> (if d_literal d then compile_literal E strict (d_pat d) else compile_pattern E ci strict (d_pat d)) = Val m -> s <= e <= length b ->
  try_match E ci fuel b (d_line d) (d_at d) m (mkRange s e) E0 = Some (Val r) -> answer b d s e E0 r.
Proof.
  intros Sd C B R. destruct Sd as [t P Nt W|x y P Lt Bd|l P Lt F Nl Nd|l P Lt Dy F].
  - assert (m = MSub E (as_seen strict t)) as ->.
    { rewrite P in C. destruct (d_literal d); [cbn in C; rewrite literal_text_is in C by exact Nt; now injection C as <-|]. destruct W as [W|W]; [discriminate|].
      unfold compile_pattern in C. cbn [compact] in C. unfold from_literal in C. rewrite (not_white t W) in C. destruct t as [|z t]; [congruence|]. rewrite literal_text_is in C by exact Nt. now injection C as <-. }
    destruct (sub_answer b d t s e E0 P Nt B) as (r' & R' & A). rewrite R in R'. now injection R' as ->.
  - rewrite P, Lt in C. destruct (regex_chosen_pattern ci strict fuel x y Bd) as (m' & C' & M). rewrite C in C'. injection C' as <-.
    assert (A := proj1 (M b (d_line d) (d_at d) s e E0 ltac:(lia) ltac:(lia) r) R). apply pieces_answer; auto; unfold is_text; rewrite ?P; auto.
  - rewrite P, Lt in C. destruct (pattern_chosen ci strict fuel l F Nl Nd) as (m' & C' & M). rewrite C in C'. injection C' as <-.
    assert (A := proj1 (M b (d_line d) (d_at d) s e E0 ltac:(lia) ltac:(lia) r) R). apply pieces_answer; auto; unfold is_text, only_text; rewrite ?P; auto. now apply static_not_dynamic.
  - rewrite P, Lt in C. pose proof (substitutions_linked _ _ _ _ _ _ _ _ _ _ _ _ Dy F C (proj1 B) (proj2 B) R) as A.
    destruct A as [i j F0 env1 A1 A2 A3 Lk Sm| |env1]; [left|right; eexists; split; reflexivity..]. eexists. split; [reflexivity|]. cbn [snd i_span rstart rend]. split; [|lia].
    apply fi_linked with F0; auto; rewrite ?P; auto; lia.
Qed.
(** ... of labels *)
Lemma label_answer d m b s e E0 r : labelled_by o d -> compile_static E ci strict (d_pat d) = Val m -> s <= e <= length b ->
  try_match E ci fuel b (d_line d) (d_at d) m (mkRange s e) E0 = Some (Val r) ->
  answer b d s e E0 r /\ forall i, m_info (fst r) = Some i -> exists c, byte_at b (rstart (i_span i)) c /\ c <> LF.
Proof.
  intros Ld C B R.
  assert (Go : forall l, existsb is_dynamic (parts_of (d_pat d)) = false -> is_text d = false -> parts_of (d_pat d) = l -> choice ci b l s e (d_at d) E0 r ->
    (forall b e i j cs, i <= e -> e <= length b -> pieces ci b e l i j cs -> exists c, byte_at b i c /\ c <> LF) ->
    answer b d s e E0 r /\ forall i, m_info (fst r) = Some i -> exists c, byte_at b (rstart (i_span i)) c /\ c <> LF).
  { intros l Dy Nt <- Oc Hl. split; [now apply pieces_answer|]. intros i I. destruct Oc as [H|k j cs vs (A1 & A2 & P & _) Pf V|]; try discriminate. injection I as <-. cbn. eapply Hl; [exact A2| |exact P]. lia. }
  destruct Ld as [t c r0 P Es Nc|x y P Bd Hl|l P F Nl Nd Nc Hl].
  - assert (Nt : t <> []) by (intros ->; rewrite <- (app_nil_r (as_seen strict [])) in Es; unfold as_seen, canonicalize_horizontal_whitespace in Es; destruct strict; discriminate).
    rewrite P in C. unfold compile_static in C. cbn [compact] in C. rewrite literal_text_is in C by exact Nt. injection C as <-.
    destruct (sub_answer b d t s e E0 P Nt B) as (r' & R' & A). rewrite R in R'. injection R' as <-. split; [exact A|]. intros i I.
    destruct A as [(i1 & Er & F & _)|(er & Er & _)]; rewrite Er in I; [|discriminate]. cbn in I. injection I as ->.
    destruct F as [t' k P' _ _ _ Tk _|k j cs vs Nx _ _ _ _ _|k j F0 E' Dy _ _ _ _ _ _].
    + assert (t' = t) by congruence. subst t'. rewrite Es in Tk. destruct (Tk 0 c eq_refl) as (x & X & Al). rewrite Nat.add_0_r in X. exists x. split; [exact X|].
      intros ->. destruct Al as [Al|(_ & u & U & [[_ Al]|[Al _]])]; [congruence|change LF with 10%N in Al; lia..].
    + unfold is_text in Nx. rewrite P in Nx. discriminate.
    + rewrite P in Dy. discriminate.
  - rewrite P in C. destruct (regex_chosen_pattern ci strict fuel x y Bd) as (m' & C' & M). assert (m' = m) as ->.
    { unfold compile_static in C. unfold compile_pattern in C'. cbn [compact] in C, C'. rewrite C in C'. now injection C'. }
    assert (A := proj1 (M b (d_line d) (d_at d) s e E0 ltac:(lia) ltac:(lia) r) R). apply (Go [QRegex x]); auto; unfold is_text; rewrite ?P; auto.
  - rewrite P in C. destruct (pattern_chosen ci strict fuel l F Nl Nd) as (m' & C' & M). assert (m' = m) as ->.
    { unfold compile_static in C. unfold compile_pattern in C'. rewrite (compact_regex ci l F Nl), Nc in C, C'. rewrite C in C'. now injection C'. }
    assert (A := proj1 (M b (d_line d) (d_at d) s e E0 ltac:(lia) ltac:(lia) r) R). apply (Go l); auto; unfold is_text, only_text; rewrite ?P; auto. now apply static_not_dynamic.
Qed.

(** * Sets *)
Lemma texts_of ds : map (literal_text_of strict) (map dir_pat ds) = map (fun d => as_seen strict (fst (written (d_pat d)))) ds.
Proof. now rewrite map_map. Qed.
Lemma text_written d : is_text d = true -> literal_text_of strict (dir_pat d) = text_of o d.
Proof. unfold is_text, text_of, literal_text_of, written. cbn [sp_pat dir_pat]. intros ->. reflexivity. Qed.
Lemma all_texts ds : forallb (fun c => only_text (sp_pat c)) (map dir_pat ds) = forallb is_text ds.
Proof. induction ds as [|d ds IH]; [reflexivity|]. cbn [map forallb]. now rewrite IH. Qed.
Lemma expressions_of ds : expressions (map dir_pat ds) = map (fun d => flat_map part_text (parts_of (d_pat d))) ds.
Proof. unfold expressions. now rewrite map_map. Qed.
Lemma fixed_all ds : Forall (fun d => fixed ci (d_pat d)) ds -> Forall (fun c => fixed ci (sp_pat c)) (map dir_pat ds).
Proof. intros F. apply Forall_map. exact F. Qed.
Lemma no_caps_values b e l i j cs vs : flat_map part_caps l = [] -> pieces ci b e l i j cs -> values_for cs vs -> vs = [] /\ cs = [].
Proof.
  intros N P V. apply pieces_caps in P. rewrite N in P. apply map_eq_nil in P as ->. now inversion V.
Qed.
Lemma no_caps_have b e l i j cs : flat_map part_caps l = [] -> pieces ci b e l i j cs -> exists vs, values_for cs vs.
Proof. intros N P. apply pieces_caps in P. rewrite N in P. apply map_eq_nil in P as ->. exists []. constructor. Qed.
Lemma not_answer ds (ps : list (wpat E)) : ds <> [] -> forbids o T ds -> map (w_pat E) ps = map dir_pat ds ->
  forall b s e (en : vars), s <= e <= length b ->
  exists m, nm (l:=L) ps b (mkRange s e) en = Val (m, en) /\
    (m_is_ok m = true /\ good_info (mkRange s e) m /\ ~ avoids o b ds s e \/ m_is_ok m = false /\ avoids o b ds s e).
Proof.
  intros Ne (F & D & Bd) Eq b s e en B. cbn [nm whole_lang]. unfold set_of. rewrite Eq.
  assert (F1 : Forall (fun c => fixed ci (sp_pat c)) (map dir_pat ds)) by (apply fixed_all; eapply Forall_impl; [|exact F]; cbv beta; tauto).
  assert (D1 : NoDup (map (fun c => written (sp_pat c)) (map dir_pat ds))) by (rewrite map_map; exact D).
  assert (Av : avoids o b ds s e <-> if forallb is_text ds
    then forall d i, In d ds -> ~ (s <= i /\ i + length (text_of o d) <= e /\ text_at ci b (text_of o d) i)
    else forall d i j cs, In d ds -> s <= i -> ~ matches_at ci b e (d_pat d) i j cs).
  { unfold avoids. split; [|tauto]. intros [->|[_ H]]; [easy|exact H]. }
  destruct (forallb is_text ds) eqn:A.
  - destruct (not_texts E T ci strict fuel (map dir_pat ds) F1 D1 ltac:(now rewrite all_texts)) as (m & -> & M). cbn [bind].
    assert (Tx : forall d, In d ds -> literal_text_of strict (dir_pat d) = text_of o d) by (intros d I; apply text_written; rewrite forallb_forall in A; auto).
    destruct (M b rounds s e en ltac:(lia)) as [(k & c & i & Nc & St & _ & ->)|[No ->]]; cbn [settled]; eexists; (split; [reflexivity|]).
    + left. apply nth_error_In in Nc. apply in_map_iff in Nc as (d & <- & I). rewrite (Tx d I) in *. destruct St as (S1 & S2 & S3). splits; [reflexivity| |].
      * split; [reflexivity|]. eexists. split; [reflexivity|]. cbn. lia.
      * intros H. pose proof (proj1 Av H) as H0; clear H; rename H0 into H. apply (H d i I). auto.
    + right. split; [reflexivity|]. apply (proj2 Av). intros d i I H. apply (No (dir_pat d) i); [now apply in_map|]. rewrite (Tx d I). exact H.
  - destruct (not_patterns_partial E T ci strict fuel (map dir_pat ds) OK F1 D1 ltac:(now rewrite all_texts) ltac:(rewrite expressions_of; auto)) as (m & -> & M). cbn [bind].
    destruct (M b rounds s e en ltac:(lia) ltac:(lia)) as (r & -> & Oc & _). cbn [settled].
    assert (Cap : forall c, In c (map dir_pat ds) -> exists d, In d ds /\ c = dir_pat d /\ flat_map part_caps (parts_of (d_pat d)) = []).
    { intros c I. apply in_map_iff in I as (d & <- & I). exists d. rewrite Forall_forall in F. apply F in I as F0. tauto. }
    destruct Oc as [No|k c i j cs vs Nc Ls Mt V|k c i j cs Nc Ls Mt V].
    + eexists. split; [reflexivity|]. right. split; [reflexivity|]. apply (proj2 Av). intros d i j cs I Ls. apply (No (dir_pat d) i j cs); [now apply in_map|exact Ls].
    + destruct (Cap c (nth_error_In _ _ Nc)) as (d & I & -> & N). cbn [sp_pat dir_pat] in Mt. destruct (no_caps_values b e _ i j cs vs N (proj2 Mt) V) as [-> ->]. cbn [defined fold_left].
      eexists. split; [reflexivity|]. left. splits; [reflexivity| |].
      * split; [reflexivity|]. eexists. split; [reflexivity|]. cbn. destruct Mt as [Mt0 Mt]. apply pieces_bounds in Mt as [? ?]; cbn in *; lia.
      * intros H. pose proof (proj1 Av H) as H0; clear H; rename H0 into H. eapply H; eauto.
    + exfalso. destruct (Cap c (nth_error_In _ _ Nc)) as (d & I & -> & N). apply V. eapply no_caps_have; [exact N|exact (proj2 Mt)].
Qed.
Lemma not_steady ds (ps : list (wpat E)) : ds <> [] -> forbids o T ds -> map (w_pat E) ps = map dir_pat ds -> steady (L:=L) ps.
Proof.
  intros Ne F Eq. split.
  - intros b s e en B. destruct (not_answer ds ps Ne F Eq b s e en B) as (m & R & A). exists m. split; [exact R|]. intros O. destruct A as [A|[A _]]; [tauto|congruence].
  - intros b s e en1 en2 m1 m2 B R1 R2. destruct (not_answer ds ps Ne F Eq b s e en1 B) as (m & R & A). rewrite R1 in R. injection R as <-.
    destruct (not_answer ds ps Ne F Eq b s e en2 B) as (m & R & A2). rewrite R2 in R. injection R as <-. destruct (m_is_ok m1), (m_is_ok m2); auto; exfalso; [destruct A as [A|[A _]], A2 as [[A2 _]|A2]|destruct A as [[A _]|A], A2 as [A2|[A2 _]]]; try discriminate; tauto.
Qed.

Lemma ok_infos s e ms : Forall (good_info (mkRange s e)) ms -> ms_ok ms = true.
Proof. intros F. unfold ms_ok. apply forallb_forall. intros m I. rewrite Forall_forall in F. destruct (F m I) as [G _]. unfold m_is_ok. now rewrite G. Qed.
Lemma entries_are ds : forall ls, map lit_text ls = map (literal_text_of strict) (map dir_pat ds) -> map lit_span ls = map sp_at (map dir_pat ds) -> forallb is_text ds = true -> entries ls = text_entries o ds.
Proof.
  unfold entries, text_entries. induction ds as [|d ds IH]; intros [|l ls] Et Es A; try discriminate; [reflexivity|]. cbn [map forallb] in *. apply andb_true_iff in A as [A1 A2].
  injection Es as E3 E4. assert (E1 := f_equal (hd []) Et). assert (E2 := f_equal (@List.tl _) Et). cbn [hd List.tl] in E1, E2. rewrite text_written in E1 by exact A1. rewrite E1, E3. cbn [dir_pat sp_at]. f_equal. now apply IH.
Qed.
Lemma dag_answer ds (ps : list (wpat E)) : ds <> [] -> orders o T ds -> map (w_pat E) ps = map dir_pat ds ->
  forall b s e (en : vars) ms en' pos, s <= e <= length b -> dm (l:=L) ps b (mkRange s e) en = Val (ms, en', pos) -> ms_ok ms = true ->
  (ms <> [] /\ Forall (good_info (mkRange s e)) ms /\ in_order s (infos ms) /\ pos = Some (last_end s (infos ms))) /\ gathers o b ds s e en (infos ms) en'.
Proof.
  intros Ne (F & Or) Eq b s e en ms en' pos B R Ok. cbn [dm whole_lang] in R. unfold set_of in R. rewrite Eq in R.
  pose proof (fixed_all ds F) as F1. destruct Or as [[A D]|(d & -> & A & Bd)].
  - assert (Tx : map (literal_text_of strict) (map dir_pat ds) = map (text_of o) ds).
    { rewrite map_map. clear -A. induction ds as [|d ds IH]; [reflexivity|]. cbn [map forallb] in *. apply andb_true_iff in A as [A1 A2]. now rewrite text_written, IH. }
    destruct (texts_as_literals E T ci strict (o_scoped o) fuel (map dir_pat ds) F1 ltac:(now rewrite Tx) ltac:(now rewrite all_texts)) as (m & ls & C & Et & Es & M).
    rewrite C in R. cbn [bind] in R. rewrite (proj2 (M b rounds (mkRange s e) en)) in R. cbn [settled] in R.
    assert (Nl : ls <> []) by (intros ->; rewrite Tx in Et; destruct ds; [congruence|discriminate]).
    destruct (ok_dm (lit_lang ci) (lit_lang_ok ci) ls b s e tt B Nl) as (ms' & en1 & pos' & R' & K). pose proof R' as R2. cbn [dm lit_lang] in R'. destruct (lit_dag ls b (mkRange s e)) as [[ms0 pos0]| |]; try discriminate.
    cbn [bind] in R, R'. injection R as -> <- <-. injection R' as <- _ <-. specialize (K Ok). split; [exact K|].
    assert (Nd : NoDup (map lit_text ls)) by (rewrite Et, Tx; exact D).
    assert (En : entries ls = text_entries o ds) by (now apply entries_are).
    destruct (proj1 (dag_texts_swept ci ls b s e tt ms en1 pos0 B Nl Nd R2) Ok) as (Sw & _). apply ga_texts; auto. rewrite <- En. exact Sw.
  - cbn [map] in *. assert (A1 : forallb (fun c => only_text (sp_pat c)) [dir_pat d] = false) by (cbn [forallb]; unfold is_text in A; cbn [sp_pat dir_pat]; now rewrite A).
    assert (D1 : NoDup (map (fun c => written (sp_pat c)) [dir_pat d])) by (repeat constructor; intros []).
    pose proof (set_compiles E T ci strict [dir_pat d] OK F1 D1 A1) as C. change (expressions [dir_pat d]) with [flat_map part_text (parts_of (d_pat d))] in C.
    destruct (rs_build T ci [flat_map part_text (parts_of (d_pat d))]) as [x|]; [|easy]. destruct C as (m & Hm & C). rewrite C in R. cbn [bind] in R.
    destruct (rmatcher_spec T OK ci [dir_pat d] F1 m Hm b s e ltac:(lia) ltac:(lia)) as (M & O & I). cbn [dag_match] in R.
    destruct (rs_matches T (rm_set T m) b (mkRange s e)) as [|h hs] eqn:Hh.
    { cbn [visit_regex length map settled] in R. cbn in R. injection R as <- <- <-. discriminate. }
    cbn [visit_regex length map settled] in R. destruct (I h (or_introl eq_refl)) as (y & Ey & Iy). cbn [map] in Ey. rewrite Ey in R. cbn [bind] in R. destruct y as [y vs].
    inversion Iy as [k c i j j' cs vs0 Nc Ls Lj Mt V|k c i j j' cs Nc Ls Mt V]; subst.
    + destruct k as [|k]; [|destruct k; discriminate]. injection Nc as <-. cbn [sp_pat dir_pat sp_at] in *. cbn [PatSet_Model.found_at m_info existsb orb] in R.
      assert (Mn : forall i' j0 cs', s <= i' -> matches_at ci b e (d_pat d) i' j0 cs' -> j <= j0).
      { intros i' j0 cs' Ls' Mt'. assert (Hi : In (0, mkRange i' j0) ((0, mkRange i j) :: hs)) by (apply M; exists (dir_pat d), cs'; auto).
        destruct Hi as [Hi|Hi]; [injection Hi as <- <-; lia|]. inversion O as [|? ? _ Fo]; subst. rewrite Forall_forall in Fo. apply Fo in Hi. exact Hi. }
      assert (j' = j) by (apply Nat.le_antisymm; [exact Lj|eapply Mn; eauto]). subst j'.
      cbn in R. injection R as <- <- <-. cbn [infos m_info]. pose proof (pieces_bounds _ _ _ _ _ _ _ (proj2 Mt)) as Bp. destruct Bp as [Bp1 Bp2]. destruct Mt as [Mt0 Mt]. split.
      * splits; [discriminate| | |reflexivity].
        -- constructor; [|constructor]. split; [reflexivity|]. eexists. split; [reflexivity|]. cbn. lia.
        -- cbn. lia.
      * eapply ga_one; eauto; [lia|split; eauto].
    + cbn in R. injection R as <- <- <-. discriminate.
Qed.
Lemma dag_orderly ds (ps : list (wpat E)) : ds <> [] -> orders o T ds -> map (w_pat E) ps = map dir_pat ds -> orderly (L:=L) ps.
Proof. intros Ne Or Eq b s e en ms en' pos B R Ok. exact (proj1 (dag_answer ds ps Ne Or Eq b s e en ms en' pos B R Ok)). Qed.
End Demand.
