(** C76: an input that passes is one that meets what the check file asks. *)
From Coq Require Import String Permutation Sorted.
From Verif Require Import Base Text_Model Text_Spec Cursor_Model Cursor_Spec Check_Model Program_Model Check_Spec File_Spec File_Proofs Lit_Model Lit_Spec Env_Model Num_Model Gram_Model Parse_Model
  Parse_Spec Parse_Props Pat_Spec Regex_Model Smart_Model Smart_Spec Smart_Static Smart_Parts Chain_Spec PatSet_Model PatSet_Spec Sim_Proofs Tame_Proofs Tame_File Whole_Model Whole_Spec Whole_Props Demand_Spec Demand_Proofs.
Open Scope string_scope.
Open Scope list_scope.
Open Scope nat_scope.
Ltac splits := repeat match goal with |- _ /\ _ => split end.

(** * Another way of finding *)
Section Change.
Context (o : options) (b : bytes) (F G : dir -> nat -> nat -> vars -> minfo -> vars -> Prop).
Definition carried (d : dir) : Prop := forall s e en i en', F d s e en i en' -> G d s e en i en'.
Definition carried_dirs (ds : list dir) : Prop := forall d, In d ds -> searched d -> carried d.
Lemma meets_change stop d k pos en is en' : meets b F stop d k pos en is en' -> (match k with KPlain | KCount _ | KNext | KSame => carried d | _ => True end) -> meets b G stop d k pos en is en'.
Proof.
  induction 1; intros C.
  - apply me_plain; auto.
  - eapply me_next; eauto.
  - eapply me_same; eauto.
  - now apply me_empty.
  - apply me_empty_eof.
  - apply me_count_1; auto.
  - eapply me_count_S; eauto.
Qed.
Lemma carried_more d ds : carried_dirs (d :: ds) -> carried_dirs ds.
Proof. intros A x I. apply A. now right. Qed.
Lemma carried_rest gs ds : carried_dirs (gs ++ ds) -> carried_dirs ds.
Proof. intros A x I. apply A. apply in_app_iff; now right. Qed.
Lemma met_change stop ds nds gap pos en out en' : met o b F stop ds nds gap pos en out en' -> carried_dirs ds -> met o b G stop ds nds gap pos en out en'.
Proof.
  induction 1 as [nds gap pos en A|d ds nds gap pos en out en' Kd A IH|d ds nds gap pos en is en1 out en' M A St Ac IH|gs ds nds gap pos en is en1 out en' N Fg H Ga A gap' Tc Ac IH]; intros C.
  - now apply mt_end.
  - apply mt_not; auto. apply IH. now apply carried_more with d.
  - apply meets_change in M; [eapply mt_one; eauto; apply IH; now apply carried_more with d|].
    specialize (C d (or_introl eq_refl)). unfold searched in C. destruct (d_kind d); auto.
  - eapply mt_group; eauto. apply IH. now apply carried_rest with gs.
Qed.
Lemma labels_change en from ds is : labels_found b F en from ds is -> (forall d, In d ds -> carried d) -> labels_found b G en from ds is.
Proof.
  induction 1 as [from|from d ds i is en' s H Le La IH]; intros C; [constructor|]. apply C in H; [|now left]. eapply lf_cons; eauto. apply IH; auto. intros x I. apply C. now right.
Qed.
Lemma parts_change start ds drest is en out en' : parts_met o b F start ds drest is en out en' -> carried_dirs ds -> Forall carried_dirs drest -> parts_met o b G start ds drest is en out en'.
Proof.
  induction 1 as [start ds en out en' A|start ds en out en1 e i next s rest is out' en' La A Le Ph IH]; intros C Cr.
  - apply met_change in A; auto. now apply pm_last.
  - inversion Cr; subst. apply met_change in A; auto. eapply pm_more; eauto.
Qed.
Lemma implied_carried : carried_dirs (implied_dirs o).
Proof. intros d I. unfold implied_dirs in I. destruct (o_imp o); [destruct I|]. destruct I as [<-|[]]. intros []. Qed.
Lemma satisfied_change f en out : (forall d, In d (df_dirs f) -> searched d \/ In d (map fst (df_blocks f)) -> carried d) ->
  satisfied o b F f en out -> satisfied o b G f en out.
Proof.
  intros C (is & en' & La & H). exists is, en'. split.
  { eapply labels_change; eauto. intros d I. apply C; [|now right]. apply in_map_iff in I as (bl & <- & I). unfold df_dirs. apply in_app_iff. right. apply in_flat_map. exists bl. split; [exact I|now left]. }
  assert (Cp : carried_dirs (with_implied o (df_prefix f))).
  { intros d I Sd. unfold with_implied in I. apply in_app_iff in I as [I|I]; [now apply implied_carried|]. apply in_flat_map in I as (x & Ix & [<-|I]).
    - apply C; [unfold df_dirs; apply in_app_iff; now left|now left].
    - apply implied_carried; auto. destruct (d_kind x); first [exact I|destruct I]. }
  assert (Cb : Forall carried_dirs (map (fun bl => implied_dirs o ++ snd bl) (df_blocks f))).
  { apply Forall_forall. intros x I. apply in_map_iff in I as (bl & <- & I).
    assert (Id : forall d, In d (snd bl) -> In d (df_dirs f)) by (intros d Id; unfold df_dirs; apply in_app_iff; right; apply in_flat_map; exists bl; split; [exact I|now right]).
    intros d J Sd. apply in_app_iff in J as [J|J]; [now apply implied_carried|]. apply C; auto. }
  cbv zeta in *. revert Cp Cb H. generalize (with_implied o (df_prefix f)) (map (fun bl => implied_dirs o ++ snd bl) (df_blocks f)). intros dp dbs Cp Cb H.
  destruct dp as [|d dp]; [destruct dbs as [|db dbs]; [|destruct is as [|i is]]|]; try (eapply parts_change; eauto; fail).
  destruct H as (s & out' & Le & -> & H). exists s, out'. inversion Cb; subst. splits; auto. eapply parts_change; eauto.
Qed.
End Change.

Section Demand.
Context (T : set_engine) (OK : set_ok T) (fuel rounds : nat) (o : options).
Notation E := ascii_engine.
Notation L := (whole_lang E T fuel rounds o).
Notation ci := (o_ci o).
Notation strict := (o_strict o).
Definition e0 : vars := env_from_config (o_defs o).
Notation Tm := (tame L e0 false).

(** * A directive and what it is compiled to *)
Definition compiled (d : dir) (k : kind) (p : wpat E) : Prop :=
  k = d_kind d /\ w_pat E p = dir_pat d /\
  match k with
  | KNot | KDag | KEmpty => True
  | KLabel => compile_static E ci strict (d_pat d) = Val (w_matcher E p)
  | _ => (if d_literal d then compile_literal E strict (d_pat d) else compile_pattern E ci strict (d_pat d)) = Val (w_matcher E p)
  end.
Definition compiled_line (d : dir) (l : line L) : Prop := compiled d (l_kind l) (l_pat l).
Lemma compiled_each pos cs : forall n ls, compile_each E T fuel rounds o pos n cs = Val ls -> Forall2 compiled_line (dirs pos n cs) ls.
Proof.
  induction cs as [|c cs IH]; intros n ls H; cbn [compile_each dirs] in *; [injection H as <-; constructor|].
  binv H. binv H. injection H as <-. constructor; [|now apply IH]. unfold compile_one in *.
  match goal with X : bind _ _ = Val _ |- _ => binv X; injection X as <- end. unfold compiled_line, compiled. cbn [l_kind l_pat d_kind d_literal d_pat d_at d_line w_pat w_matcher]. splits; [now destruct (cl_kind c)|reflexivity|].
  destruct (cl_kind c); cbn in *; auto.
Qed.
Lemma proper_line d k p : compiled d k p -> searches k = true -> searchable o d -> proper (L:=L) p.
Proof.
  intros (K & W & C) Sk Sd b s e en m en' B R. cbn [pm whole_lang] in R. rewrite W in R. cbn [dir_pat sp_line sp_at] in R. unfold settled in R.
  destruct (try_match _ _ _ _ _ _ _ _ _) as [r|] eqn:Tr; [subst r|discriminate].
  assert (C' : (if d_literal d then compile_literal E strict (d_pat d) else compile_pattern E ci strict (d_pat d)) = Val (w_matcher E p)) by (destruct k; try discriminate; exact C).
  destruct (pattern_answer fuel o d _ b s e en _ Sd C' B Tr) as [(i & Er & _ & A1 & A2)|(er & Er & Le)]; cbn [fst] in Er; subst m.
  - left. split; [reflexivity|]. exists i. split; [reflexivity|]. cbn. lia.
  - right. exists er. split; [reflexivity|exact Le].
Qed.
Lemma found_line d k p b s e en i en' : compiled d k p -> searches k = true -> searchable o d -> s <= e <= length b -> Check_Spec.found (L:=L) b p s e en i en' -> finds o b d s e en i en'.
Proof.
  intros (K & W & C) Sk Sd B (m & R & Ty & In). cbn [pm whole_lang] in R. rewrite W in R. cbn [dir_pat sp_line sp_at] in R. unfold settled in R.
  destruct (try_match _ _ _ _ _ _ _ _ _) as [r|] eqn:Tr; [subst r|discriminate].
  assert (C' : (if d_literal d then compile_literal E strict (d_pat d) else compile_pattern E ci strict (d_pat d)) = Val (w_matcher E p)) by (destruct k; try discriminate; exact C).
  destruct (pattern_answer fuel o d _ b s e en _ Sd C' B Tr) as [(i' & Er & F & _)|(er & Er & Le)]; cbn [fst snd] in *; subst m; [|discriminate]. cbn in In. injection In as ->. exact F.
Qed.
Lemma proper_label d p : compiled d KLabel p -> labelled_by o d -> proper (L:=L) p /\ solid (L:=L) p.
Proof.
  intros (K & W & C) Ld. split.
  - intros b s e en m en' B R. cbn [pm whole_lang] in R. rewrite W in R. cbn [dir_pat sp_line sp_at] in R. unfold settled in R.
    destruct (try_match _ _ _ _ _ _ _ _ _) as [r|] eqn:Tr; [subst r|discriminate].
    destruct (label_answer fuel o d _ b s e en _ Ld C B Tr) as [[(i & Er & _ & A1 & A2)|(er & Er & Le)] _]; cbn [fst] in Er; subst m.
    + left. split; [reflexivity|]. exists i. split; [reflexivity|]. cbn. lia.
    + right. exists er. split; [reflexivity|exact Le].
  - intros b s e en m en' B R. cbn [pm whole_lang] in R. rewrite W in R. cbn [dir_pat sp_line sp_at] in R. unfold settled in R.
    destruct (try_match _ _ _ _ _ _ _ _ _) as [r|] eqn:Tr; [subst r|discriminate].
    destruct (label_answer fuel o d _ b s e en _ Ld C B Tr) as [[(i & Er & _ & A1 & A2)|(er & Er & Le)] X]; cbn [fst] in *; (split; [|exact X]); subst m; intros H; [discriminate|reflexivity].
Qed.
Lemma found_label d p b s e en i en' : compiled d KLabel p -> labelled_by o d -> s <= e <= length b -> Check_Spec.found (L:=L) b p s e en i en' -> finds o b d s e en i en'.
Proof.
  intros (K & W & C) Ld B (m & R & Ty & In). cbn [pm whole_lang] in R. rewrite W in R. cbn [dir_pat sp_line sp_at] in R. unfold settled in R.
  destruct (try_match _ _ _ _ _ _ _ _ _) as [r|] eqn:Tr; [subst r|discriminate].
  destruct (label_answer fuel o d _ b s e en _ Ld C B Tr) as [[(i' & Er & F & _)|(er & Er & Le)] _]; cbn [fst snd] in *; subst m; [|discriminate]. cbn in In. injection In as ->. exact F.
Qed.
Lemma compiled_pats k ds (ps : list (wpat E)) : Forall2 (fun d p => compiled d k p) ds ps -> map (w_pat E) ps = map dir_pat ds.
Proof. induction 1 as [|d p ds ps (_ & W & _) F IH]; [reflexivity|]. cbn [map]. now rewrite W, IH. Qed.

Section Input.
Context (b : bytes).
(** what the search for the compiled pattern of a directive returns *)
Definition answers (d : dir) (s e : nat) (en : vars) (i : minfo) (en' : vars) : Prop :=
  exists k p, compiled d k p /\ s <= e <= length b /\ Check_Spec.found (L:=L) b p s e en i en'.
Lemma absent_avoids ds (ps : list (wpat E)) s e en : (ds <> [] -> forbids o T ds) -> map (w_pat E) ps = map dir_pat ds -> absent (L:=Tm) b ps s e en -> avoids o b ds s e.
Proof.
  intros F Eq A. destruct ds as [|d ds]; [now left|]. assert (Ne : d :: ds <> []) by discriminate. assert (Np : ps <> []) by (intros ->; discriminate).
  pose proof (absent_inside L e0 false b ps s e en eq_refl Np A) as B. destruct A as [A|(m & en' & R & O)]; [easy|].
  cbn [nm tame] in R. unfold tame_nm in R. rewrite (insideb_mk b s e B) in R. destruct (not_answer T OK fuel rounds o (d :: ds) ps Ne (F Ne) Eq b s e e0 B) as (m0 & R0 & X).
  rewrite R0 in R. destruct X as [(O1 & G & _)|[O1 X]]; [|exact X]. apply goodb_spec in G. rewrite O1, G in R. cbn in R. injection R as <- _. congruence.
Qed.
Lemma fires_meets stop d k p pos en is en' : compiled d k p -> fires (L:=Tm) b stop k p pos en is en' -> meets b answers stop d k pos en is en'.
Proof.
  intros C F. assert (X : forall s e en i en', Check_Spec.found (L:=Tm) b p s e en i en' -> answers d s e en i en').
  { intros s e en1 i en2 H. exists k, p. splits; auto; [eapply (found_inside L e0 false b p s e en1 i en2 eq_refl H)..|eapply found_out; exact H]. }
  assert (Q : forall k, searches k = true -> (forall s e en i en', Check_Spec.found (L:=Tm) b p s e en i en' -> answers d s e en i en') -> fires (L:=Tm) b stop k p pos en is en' -> meets b answers stop d k pos en is en').
  { clear. intros k K X F. induction F; try discriminate; try (now constructor; auto).
    - eapply me_next; eauto.
    - eapply me_same; eauto.
    - eapply me_count_S; eauto. }
  destruct k; try (apply Q; auto; now apply X); try (inversion F; fail).
  inversion F; subst; [now apply me_empty|apply me_empty_eof].
Qed.
Definition rest_ok (nds ds : list dir) : Prop :=
  (forall d, In d ds -> match d_kind d with KPlain | KCount _ | KNext | KSame => searchable o d | _ => True end) /\
  Forall (fun d => d_kind d = KNot) nds /\ each_run KNot (forbids o T) (nds ++ ds) /\ each_run KDag (orders o T) ds.
Lemma rest_forbids nds ds : rest_ok nds ds -> nds <> [] -> forbids o T nds.
Proof. intros (_ & K & R & _) N. exact (R [] nds ds eq_refl K N). Qed.
Lemma each_suffix k P a ds : each_run k P (a ++ ds) -> each_run k P ds.
Proof. intros H pre run post ->. apply (H (a ++ pre) run post). now rewrite app_assoc. Qed.
Lemma rest_next nds d ds : rest_ok nds (d :: ds) -> rest_ok [] ds.
Proof.
  intros (A & K & R & D). unfold rest_ok. splits; [intros x I; apply A; now right|constructor|apply (each_suffix _ _ (nds ++ [d])); rewrite <- app_assoc; exact R|apply (each_suffix _ _ [d]); exact D].
Qed.
Lemma rest_more nds d ds : d_kind d = KNot -> rest_ok nds (d :: ds) -> rest_ok (nds ++ [d]) ds.
Proof.
  intros Kd (A & K & R & D). unfold rest_ok. splits; [intros x I; apply A; now right|apply Forall_app; split; [exact K|now constructor]|rewrite <- app_assoc; exact R|apply (each_suffix _ _ [d]); exact D].
Qed.
Lemma rest_group nds gs ds : rest_ok nds (gs ++ ds) -> rest_ok [] ds.
Proof.
  intros (A & K & R & D). unfold rest_ok. splits; [intros x I; apply A; apply in_app_iff; now right|constructor|apply (each_suffix _ _ (nds ++ gs)); rewrite <- app_assoc; exact R|apply (each_suffix _ _ gs); exact D].
Qed.
Definition compiled_tame (d : dir) (l : line Tm) : Prop := compiled d (l_kind l) (l_pat l).
Lemma compiled_head ds (ls : list (line Tm)) : Forall2 compiled_tame ds ls -> head_kind ls = match ds with [] => None | d :: _ => Some (d_kind d) end.
Proof. intros [|d l ds' ls' (K & _) F]; [reflexivity|]. cbn. now rewrite K. Qed.
Lemma accepts_met stop ls nots gap pos en out en' : accepts (L:=Tm) b stop ls nots gap pos en out en' -> forall ds nds, Forall2 compiled_tame ds ls ->
  map (w_pat E) nots = map dir_pat nds -> rest_ok nds ds -> met o b answers stop ds nds gap pos en out en'.
Proof.
  induction 1 as [nots gap pos en A|p ls nots gap pos en out en' A IH|k p ls nots gap pos en is en1 out en' F A St Ac IH|gs ls nots gap pos en ms en1 stop' out en' N H D O A touch Tc Ac IH]; intros ds nds Fl En R.
  - inversion Fl; subst. apply mt_end. eapply absent_avoids; [|exact En|exact A]. now apply rest_forbids with [].
  - inversion Fl as [|d ? ds' ? C Fl']; subst. pose proof C as (K & W & _). cbn [l_kind l_pat] in K, W. apply mt_not; [now rewrite <- K|]. apply IH; auto; [|now apply rest_more].
    etransitivity; [exact (map_app (w_pat E) nots [p])|]. etransitivity; [|symmetry; apply map_app]. exact (f_equal2 (@app _) En (f_equal (fun x => [x]) W)).
  - inversion Fl as [|d ? ds' ? C Fl']; subst. pose proof C as (K & W & _). cbn [l_kind l_pat] in K, W. apply mt_one with en1.
    + rewrite <- K. apply fires_meets with p; auto.
    + eapply absent_avoids; [|exact En|exact A]. intros X. eapply rest_forbids; eauto.
    + exact St.
    + apply IH; auto. eapply rest_next; exact R.
  - apply Forall2_app_inv_r in Fl as (dg & ds' & Fg & Fl & ->).
    assert (G : Forall2 (fun d p => compiled d KDag p) dg gs).
    { clear -Fg. revert dg Fg. induction gs as [|g gs IH]; intros dg Fg; inversion Fg; subst; constructor; auto. }
    assert (Kg : Forall (fun d => d_kind d = KDag) dg) by (clear -G; induction G as [|d p dg gs (K & _) G IH]; constructor; auto).
    assert (Ng : dg <> []) by (intros ->; inversion G; subst; now elim N).
    assert (Od : orders o T dg) by (destruct R as (_ & _ & _ & R); exact (R [] dg ds' eq_refl Kg Ng)).
    pose proof (dag_inside L e0 false b gs pos stop en ms en1 stop' eq_refl D O) as B.
    pose proof (tame_dm_ok L false gs b (mkRange pos stop) en ms en1 stop' D O) as D'.
    destruct (dag_answer T OK fuel rounds o dg gs Ng Od (compiled_pats _ _ _ G) b pos stop en ms en1 stop' B D' O) as [_ Ga].
    pose proof (compiled_head ds' ls Fl) as Hd.
    apply mt_group with en1 touch; auto.
    + intros d r ->. rewrite Hd in H. congruence.
    + eapply absent_avoids; [|exact En|exact A]. intros X. eapply rest_forbids; eauto.
    + rewrite Tc. unfold touchy, touches. rewrite Hd. destruct ds' as [|d r]; [tauto|]. destruct (d_kind d); tauto.
    + apply IH; auto. eapply rest_group; exact R.
Qed.
Lemma part_met stop ls pos en out en' ds : accepts (L:=Tm) b stop ls [] false pos en out en' -> Forall2 compiled_tame ds ls -> part_ok o T ds -> met o b answers stop ds [] false pos en out en'.
Proof. intros A F (P1 & P2 & P3). eapply accepts_met; eauto. unfold rest_ok. splits; auto. Qed.
Lemma labels_met en from ps is : labels_at (L:=Tm) b en from ps is -> forall ds, Forall2 (fun d p => compiled d KLabel p /\ labelled_by o d) ds ps -> labels_found b answers en from ds is.
Proof.
  induction 1 as [from|from p ps i is en' s F Le La IH]; intros ds Fl; inversion Fl as [|d ? ds' ? [C Ld] Fl']; subst; [constructor|].
  apply lf_cons with en' s; auto. pose proof (found_inside L e0 false b p from (length b) en i en' eq_refl F) as B. apply found_out in F. exists KLabel, p. auto.
Qed.
Lemma parts_hold_met start body rest is en out en' : parts_hold (L:=Tm) b start body rest is en out en' ->
  forall ds drest, Forall2 compiled_tame ds body -> Forall2 (Forall2 compiled_tame) drest rest -> part_ok o T ds -> Forall (part_ok o T) drest -> parts_met o b answers start ds drest is en out en'.
Proof.
  induction 1 as [start body en out en' A|start body en out en1 e i next s rest is out' en' La A Le Ph IH]; intros ds drest F Fr Po Pr.
  - inversion Fr; subst. apply pm_last. eapply part_met; eauto.
  - inversion Fr as [|dn ? drest' ? Fn Fr']; subst. inversion Pr; subst. apply pm_more with en1 e s; auto. eapply part_met; eauto.
Qed.
End Input.

(** * Files *)
Notation imp := (implicit_pat E o).
Lemma one_of_text l : one_of l = implicit_text l.
Proof. unfold implicit_text. induction l as [|x [|y l] IH]; [reflexivity..|]. change (one_of (x :: y :: l)) with (of_string "(" ++ x ++ of_string ")|" ++ one_of (y :: l)). rewrite IH. cbn [map join]. now rewrite <- !app_assoc. Qed.
Lemma implied_compiled : Forall2 compiled_line (implied_dirs o) (implied (L:=L) imp).
Proof.
  unfold implied_dirs, implicit_pat. destruct (o_imp o) as [|x l]; [constructor|]. cbn [implied]. constructor; [|constructor]. unfold compiled_line, compiled. cbn [d_kind l_kind l_pat w_pat]. splits; auto. unfold dir_pat. cbn [d_at d_line d_pat]. now rewrite one_of_text.
Qed.
Lemma with_implied_compiled ds ls : Forall2 compiled_line ds ls -> Forall2 compiled_line (with_implied o ds) (with_implicit (L:=L) imp ls).
Proof.
  intros F. unfold with_implied, with_implicit. apply Forall2_app; [exact implied_compiled|]. induction F as [|d l ds ls C F IH]; [constructor|]. cbn [flat_map app]. constructor; [exact C|]. apply Forall2_app; [|exact IH].
  destruct C as (-> & _). destruct (d_kind d); first [exact implied_compiled|constructor].
Qed.
Definition compiled_block (bl : dir * list dir) (bl' : pat L * list (line L)) : Prop := compiled (fst bl) KLabel (fst bl') /\ Forall2 compiled_line (snd bl) (snd bl').
Definition compiled_file (f : dfile) (f' : File_Spec.file L) : Prop := Forall2 compiled_line (df_prefix f) (f_prefix f') /\ Forall2 compiled_block (df_blocks f) (f_blocks f').
Lemma cut_file f ls : cut_at_labels f -> Forall2 compiled_line (df_dirs f) ls -> exists f', compiled_file f f' /\ file_lines f' = ls.
Proof.
  destruct f as [pre bls]. unfold df_dirs, cut_at_labels. cbn [df_prefix df_blocks]. intros (_ & Cb) F. apply Forall2_app_inv_l in F as (l1 & l2 & F1 & F2 & ->).
  assert (X : exists bls', Forall2 compiled_block bls bls' /\ flat_map (fun bl => mkLine (L:=L) KLabel (fst bl) :: snd bl) bls' = l2).
  { clear F1. revert l2 F2. induction bls as [|[d ds] bls IH]; intros l2 F2; cbn [flat_map] in F2; [inversion F2; subst; exists []; split; [constructor|reflexivity]|].
    cbn [fst snd app] in F2. inversion F2 as [|? l ? l3 C F3]; subst. apply Forall2_app_inv_l in F3 as (l4 & l5 & F4 & F5 & ->). destruct (IH (fun bl I => Cb bl (or_intror I)) l5 F5) as (bls' & G1 & G2).
    destruct (Cb (d, ds) (or_introl eq_refl)) as [Kd _]. cbn [fst] in Kd. destruct l as [k p]. unfold compiled_line in C. cbn [l_kind l_pat] in C. pose proof C as (K & _). rewrite Kd in K. subst k.
    exists ((p, l4) :: bls'). split; [constructor; [split; auto|exact G1]|]. cbn [flat_map fst snd app]. now rewrite G2. }
  destruct X as (bls' & G1 & G2). exists (mkFile l1 bls'). split; [split; auto|]. unfold file_lines. cbn [f_prefix f_blocks]. now rewrite G2.
Qed.
Lemma compiled_in ds ls l : Forall2 compiled_line ds ls -> In l ls -> exists d, In d ds /\ compiled_line d l.
Proof. induction 1 as [|d l' ds ls C F IH]; intros []; [subst; exists d; split; [now left|exact C]|]. destruct IH as (d' & I & C'); auto. exists d'. split; [now right|exact C']. Qed.
Lemma blocks_in bls bls' bl' : Forall2 compiled_block bls bls' -> In bl' bls' -> exists bl, In bl bls /\ compiled_block bl bl'.
Proof. induction 1 as [|d l' ds ls C F IH]; intros []; [subst; exists d; split; [now left|exact C]|]. destruct IH as (d' & I & C'); auto. exists d'. split; [now right|exact C']. Qed.
Lemma part_sane ds ls : Forall2 compiled_line ds ls -> part_ok o T ds -> sane_part (L:=L) ls.
Proof.
  intros F (P1 & P2 & P3).
  assert (Rn : forall k (P : list dir -> Prop) (Q : list (pat L) -> Prop), (k = KNot \/ k = KDag) -> (forall rd (ps : list (pat L)), rd <> [] -> P rd -> map (w_pat E) ps = map dir_pat rd -> Q ps) -> each_run k P ds -> runs (L:=L) k Q ls).
  { intros k P Q Kk HQ Er pre run post -> A N. apply Forall2_app_inv_r in F as (d1 & d2 & _ & F & ->). apply Forall2_app_inv_r in F as (d3 & d4 & F & _ & ->).
    assert (A' : Forall (fun d => d_kind d = k) d3) by (clear -F A; induction F as [|d l ds ls (K & _) F IH]; constructor; inversion A; subst; auto; congruence).
    assert (N3 : d3 <> []) by (intros ->; inversion F; subst; now elim N).
    apply (HQ d3); auto; [apply (Er d1 d3 d4 eq_refl A' N3)|]. clear -F. induction F as [|d l ds ls (_ & W & _) F IH]; [reflexivity|]. cbn [map]. now rewrite W, IH. }
  unfold sane_part. splits.
  - intros l I Sk. destruct (compiled_in ds ls l F I) as (d & Id & C). apply (proper_line d (l_kind l)); auto. specialize (P1 d Id). destruct C as (K & _). rewrite <- K in P1. now destruct (l_kind l).
  - apply (Rn KNot (forbids o T)); auto. intros rd ps N Fb Eq. now apply (not_steady T OK fuel rounds o rd).
  - apply (Rn KDag (orders o T)); auto. intros rd ps N Fb Eq. now apply (dag_orderly T OK fuel rounds o rd).
Qed.
Lemma file_sane f f' : checkable o T f -> compiled_file f f' -> file_ok f' /\ sane (L:=L) imp f'.
Proof.
  intros ((C1 & C2) & Z & Pp & Pb) [F1 F2]. split.
  - unfold file_ok. splits.
    + intros l I. destruct (compiled_in _ _ _ F1 I) as (d & Id & (K & _)). rewrite K. now apply C1.
    + intros bl' I l Il. destruct (blocks_in _ _ _ F2 I) as (bl & Ib & _ & Fb). destruct (compiled_in _ _ _ Fb Il) as (d & Id & (K & _)). rewrite K. now apply (C2 bl Ib).
    + assert (X : Forall2 (fun d (l : line L) => l_kind l = d_kind d) (df_dirs f) (file_lines f')).
      { unfold df_dirs, file_lines. apply Forall2_app; [eapply Forall2_weaken; [|exact F1]; intros d l _ (K & _); exact K|].
        clear -F2 C2. induction F2 as [|bl bl' bls bls' (Cl & Fb) F IH]; [constructor|]. cbn [flat_map app]. constructor; [cbn [l_kind]; now rewrite (proj1 (C2 bl (or_introl eq_refl)))|]. apply Forall2_app; [|apply IH; intros x I; apply C2; now right].
        eapply Forall2_weaken; [|exact Fb]. intros d l _ (K & _). exact K. }
      intros l I. clear -X Z I. induction X as [|d l' ds ls K X IH]; [destruct I|]. destruct I as [->|I]; [rewrite K; apply Z; now left|apply IH; auto; intros x Ix; apply Z; now right].
  - split.
    + eapply part_sane; [apply with_implied_compiled; exact F1|exact Pp].
    + intros bl' I. destruct (blocks_in _ _ _ F2 I) as (bl & Ib & Cl & Fb). destruct (Pb bl Ib) as [Ld Po]. destruct (proper_label _ _ Cl Ld) as [P1 P2]. splits; auto.
      eapply part_sane; [|exact Po]. apply Forall2_app; [exact implied_compiled|exact Fb].
Qed.
Lemma tame_lines ds (ls : list (line L)) : Forall2 compiled_line ds ls -> Forall2 compiled_tame ds (map (tl L e0 false) ls).
Proof. induction 1 as [|d l ds ls C F IH]; [constructor|]. cbn [map]. constructor; [exact C|exact IH]. Qed.
Lemma file_satisfied f f' b out : checkable o T f -> compiled_file f f' -> file_holds (L:=Tm) b imp (tf L e0 false f') e0 out -> satisfied o b (answers b) f e0 out.
Proof.
  intros ((C1 & C2) & Z & Pp & Pb) [F1 F2] (is & en' & La & H). exists is, en'. split.
  - apply (labels_met b e0 0 _ is La). cbn [tf f_blocks]. rewrite map_map. clear -F2 Pb. induction F2 as [|bl bl' bls bls' (Cl & Fb) F IH]; [constructor|]. cbn [map fst]. constructor; [split; [exact Cl|apply (Pb bl (or_introl eq_refl))]|].
    apply IH. intros x I. apply Pb. now right.
  - assert (Fp : Forall2 compiled_tame (with_implied o (df_prefix f)) (with_implicit (L:=Tm) imp (f_prefix (tf L e0 false f')))).
    { cbn [tf f_prefix]. pose proof (tl_implicit L e0 false imp (f_prefix f')) as X. change (@implicit_pat E o) with imp in X. rewrite <- X. apply tame_lines. now apply with_implied_compiled. }
    assert (Fb : Forall2 (Forall2 compiled_tame) (map (fun bl => implied_dirs o ++ snd bl) (df_blocks f)) (map (fun bl => implied (L:=Tm) imp ++ snd bl) (f_blocks (tf L e0 false f')))).
    { cbn [tf f_blocks]. rewrite map_map. clear -F2. induction F2 as [|bl bl' bls bls' (Cl & Fb) F IH]; [constructor|]. cbn [map]. constructor; [|exact IH]. cbn [snd]. rewrite <- (tl_implied L e0 false imp), <- map_app.
      apply tame_lines. apply Forall2_app; [exact implied_compiled|exact Fb]. }
    assert (Po : Forall (part_ok o T) (map (fun bl => implied_dirs o ++ snd bl) (df_blocks f))).
    { apply Forall_forall. intros x I. apply in_map_iff in I as (bl & <- & I). now apply Pb. }
    cbv zeta in *. revert Fp Fb Po Pp H. generalize (with_implied o (df_prefix f)) (with_implicit (L:=Tm) imp (f_prefix (tf L e0 false f'))) (map (fun bl => implied_dirs o ++ snd bl) (df_blocks f)) (map (fun bl => implied (L:=Tm) imp ++ snd bl) (f_blocks (tf L e0 false f'))).
    intros dp lp dbs lbs Fp Fb Po Pp H. pose proof (parts_hold_met b) as Ph.
    destruct Fp as [|d l dp lp Cd Fp]; [destruct Fb as [|db lb dbs lbs Cb Fb]; [|destruct is as [|i is]]|]; try (apply (Ph _ _ _ _ _ _ _ H); auto; fail).
    1: destruct H as (s & out' & Le & -> & H). exists s, out'. splits; auto. inversion Po; subst. apply (Ph _ _ _ _ _ _ _ H); auto.
    all: apply (Ph _ _ _ _ _ _ _ H); auto; now constructor.
Qed.
(** What a run that passes has gone through *)
Lemma reports_run pos text b out : reports (verify E T fuel rounds o pos text b) out ->
  exists cs ls t, parse_file (o_parse o) text = Some cs /\ compile_each E T fuel rounds o pos 0 cs = Val ls /\
    filecheck (L:=L) (o_allow o) imp ls b e0 = Val t /\ t_errors t = [] /\ out = sort_matches (t_matches t).
Proof.
  intros (t & V & R). unfold into_result, t_is_ok in R. destruct (t_errors t) as [|x xs] eqn:Er; [injection R as <-|discriminate]. unfold verify in V.
  destruct (parse_file (o_parse o) text) as [cs|]; [|discriminate]. binv V. unfold Whole_Model.compile_file in *. match goal with X : bind _ _ = Val _ |- _ => binv X; binv X; binv X; injection X as -> end.
  do 3 eexists. splits; [reflexivity|eassumption| |exact Er|reflexivity]. unfold filecheck. match goal with X : compile _ _ = Val _ |- _ => rewrite X end. cbn [bind]. exact V.
Qed.
Lemma run_nonempty b ls t : filecheck (L:=L) (o_allow o) imp ls b e0 = Val t -> t_errors t = [] -> b <> [] \/ o_allow o = true.
Proof.
  intros H Er. destruct b as [|c b]; [|left; discriminate]. right. destruct (o_allow o); [reflexivity|]. unfold filecheck in H. binv H. unfold check_input in H. binv H. cbn in H. injection H as <-. discriminate.
Qed.
Lemma run_lines f' b t : file_ok f' -> filecheck (L:=L) (o_allow o) imp (file_lines f') b e0 = Val t -> (file_lines f' <> [] \/ imp <> None) /\ anchored (f_prefix f').
Proof.
  intros Ok H. unfold filecheck in H. binv H. match goal with X : compile _ _ = Val _ |- _ => rename X into C end.
  assert (A : file_lines f' <> [] \/ imp <> None).
  { unfold compile in C. destruct (file_lines f'); [|left; discriminate]. destruct imp; [right; discriminate|discriminate]. }
  split; [exact A|]. pose proof (File_Proofs.compile_file (L:=L) imp f' Ok A) as X. apply anchored_b; [apply Ok|]. destruct (anchoredb false (f_prefix f')); [reflexivity|]. rewrite C in X. discriminate.
Qed.
Lemma insert_listed i l : StronglySorted (fun i j => i_pspan i <= i_pspan j) l -> listed (i :: l) (insert_match i l).
Proof.
  induction l as [|j l IH]; intros Hs; cbn [insert_match].
  - split; [reflexivity|constructor; constructor].
  - inversion Hs as [|? ? Hs' Hj]; subst. destruct (IH Hs') as [P Q]. destruct (Nat.leb_spec (i_pspan j) (i_pspan i)) as [Le|Gt].
    + split; [rewrite perm_swap; now apply perm_skip|]. constructor; [exact Q|]. apply Forall_forall. intros x I. apply (Permutation_in x (Permutation_sym P)) in I as [<-|I]; [exact Le|]. exact (proj1 (Forall_forall _ _) Hj x I).
    + split; [reflexivity|]. constructor; [exact Hs|]. constructor; [lia|]. eapply Forall_impl; [|exact Hj]. cbn. intros; lia.
Qed.
Lemma sort_listed l : listed l (sort_matches l).
Proof.
  unfold sort_matches. enough (G : forall acc, StronglySorted (fun i j => i_pspan i <= i_pspan j) acc -> listed (l ++ acc) (fold_left (fun acc i => insert_match i acc) l acc)).
  { specialize (G [] ltac:(constructor)). now rewrite app_nil_r in G. }
  induction l as [|i l IH]; intros acc Ha; cbn [fold_left app]; [split; [reflexivity|exact Ha]|]. destruct (insert_listed i acc Ha) as [P Q]. destruct (IH _ Q) as [P' Q']. split; [|exact Q'].
  rewrite <- P', <- P. apply Permutation_middle.
Qed.
Lemma passing_answers pos text cs f b out : parse_file (o_parse o) text = Some cs -> df_dirs f = dirs pos 0 cs -> checkable o T f -> suits o b f ->
  reports (verify E T fuel rounds o pos text b) out -> exists out0, satisfied o b (answers b) f e0 out0 /\ listed out0 out.
Proof.
  intros Pa Df Ck (Su & Rm) R. apply reports_run in R as (cs' & ls & t & Pa' & Ce & Fc & Er & ->). rewrite Pa in Pa'. injection Pa' as <-.
  apply compiled_each in Ce. rewrite <- Df in Ce. destruct (cut_file f ls (proj1 Ck) Ce) as (f' & Cf & <-). destruct (file_sane f f' Ck Cf) as [Fo Sa]. destruct (run_lines f' b t Fo Fc) as [Nl An].
  exists (t_matches t). split; [|apply sort_listed]. apply (file_satisfied f f'); auto. destruct Cf as [F1 F2]. destruct Ck as ((C1 & C2) & Z & Pp & Pb).
  apply (tame_pass L false (o_allow o) imp f' b e0); eauto.
  - destruct Su as [Su|[Su Sr]]; [now left|right]. rewrite Su in F2. inversion F2. split; [reflexivity|]. intros l I. destruct (compiled_in _ _ _ F1 I) as (d & Id & (K & _)). rewrite K. now apply Sr.
  - destruct Rm as [Rm|Rm]; [left|right].
    + pose proof (with_implied_compiled _ _ F1) as X. rewrite Rm in X. now inversion X.
    + intros p Hp i en' F. destruct (df_blocks f) as [|bl rest] eqn:Eb; destruct (f_blocks f') as [|bl' rest'] eqn:Eb'; try (now inversion F2).
      cbn in Hp. injection Hp as <-. assert (Cl : compiled (fst bl) KLabel (fst bl')) by (now inversion F2 as [|? ? ? ? (X & _) _]).
      apply (Rm bl rest i en' eq_refl). eapply found_label; [exact Cl|apply (Pb bl (or_introl eq_refl))|lia|exact F].
  - eapply run_nonempty; eauto.
Qed.
(** The searched patterns of a check file, and its labels *)
Lemma searched_line f d : checkable o T f -> In d (df_dirs f) -> searched d -> searches (d_kind d) = true /\ searchable o d.
Proof.
  intros ((C1 & C2) & _ & Pp & Pb) I Sd. assert (searches (d_kind d) = true) as Hs by (unfold searched in Sd; destruct (d_kind d); try reflexivity; now elim Sd). split; [exact Hs|].
  unfold df_dirs in I. apply in_app_iff in I as [I|I].
  - assert (Sx : match d_kind d with KPlain | KCount _ | KNext | KSame => searchable o d | _ => True end).
    { apply (proj1 Pp). unfold with_implied. apply in_app_iff. right. apply in_flat_map. exists d. split; [exact I|now left]. }
    unfold searched in Sd. destruct (d_kind d); auto; now elim Sd.
  - apply in_flat_map in I as (bl & Ib & [<-|I]).
    + destruct (C2 bl Ib) as [K _]. unfold searched in Sd. rewrite K in Sd. now elim Sd.
    + assert (Sx : match d_kind d with KPlain | KCount _ | KNext | KSame => searchable o d | _ => True end) by (apply (proj1 (proj2 (Pb bl Ib))); apply in_app_iff; now right).
      unfold searched in Sd. destruct (d_kind d); auto; now elim Sd.
Qed.
Lemma label_line f d : checkable o T f -> In d (map fst (df_blocks f)) -> d_kind d = KLabel /\ labelled_by o d.
Proof. intros ((C1 & C2) & _ & Pp & Pb) I. apply in_map_iff in I as (bl & <- & Ib). split; [apply (C2 bl Ib)|apply (Pb bl Ib)]. Qed.
(** C76: if the run of a check file on an input passes, then the input meets what the directives ask, at the places that
    are reported. *)
Theorem passing_input_partial pos text cs f b out : parse_file (o_parse o) text = Some cs -> df_dirs f = dirs pos 0 cs -> checkable o T f -> suits o b f ->
  reports (verify E T fuel rounds o pos text b) out -> exists out0, satisfied o b (finds o b) f e0 out0 /\ listed out0 out.
Proof.
  intros Pa Df Ck Su R. destruct (passing_answers pos text cs f b out Pa Df Ck Su R) as (out0 & H & Hl). exists out0. split; [|exact Hl]. revert H. apply satisfied_change.
  intros d I X s e en i en' (k & p & C & B & F). pose proof C as (K & _). destruct X as [X|X].
  - destruct (searched_line f d Ck I X) as [Sk Sd]. rewrite <- K in Sk. now apply (found_line d k p).
  - destruct (label_line f d Ck X) as [Kl Ld]. assert (k = KLabel) as -> by congruence. now apply (found_label d p).
Qed.
End Demand.
Print Assumptions passing_input_partial.

(** ** A case *)
Lemma runs_when k (q : dir -> bool) (P : list dir -> Prop) ds : (forall d, d_kind d = k -> q d = true) ->
  Forall P (filter (fun l => (negb (match l with [] => true | _ => false end) && forallb q l)%bool) (flat_map (fun n => map (fun m => firstn m (skipn n ds)) (seq 0 (S (List.length ds)))) (seq 0 (S (List.length ds))))) -> each_run k P ds.
Proof.
  intros Q F pre run post Eq A N. rewrite Forall_forall in F. apply F. apply filter_In. split.
  - apply in_flat_map. exists (List.length pre). split; [apply in_seq; rewrite Eq, app_length; lia|]. apply in_map_iff. exists (List.length run). split; [|apply in_seq; rewrite Eq, !app_length; lia].
    rewrite Eq, skipn_app, skipn_all, Nat.sub_diag. cbn [app skipn]. rewrite firstn_app, firstn_all, Nat.sub_diag. cbn [firstn]. apply app_nil_r.
  - destruct run; [now elim N|]. cbn [negb andb]. apply forallb_forall. intros x I. apply Q. exact (proj1 (Forall_forall _ _) A x I).
Qed.
Definition is_not d := match d_kind d with KNot => true | _ => false end.
Definition is_dag d := match d_kind d with KDag => true | _ => false end.
Definition function_check : str := file [txt "// CHECK-LABEL: fn main"; txt "// CHECK: ld [[R:[a-z]+]], [[#N:]]"; txt "// CHECK-NOT: err{{[0-9]}}"; txt "// CHECK-NEXT: use [[R]]"; txt "// CHECK-DAG: ret"; txt "// CHECK-DAG: end"].
Definition function_input : bytes := of_string ("fn MAIN" ++ nl ++ "ld ax 7 ld bx, 42 ;" ++ nl ++ "use ax use bx" ++ nl ++ "end ret").
Definition function_lines : list cline := match parse_file check_cfg function_check with Some cs => cs | None => [] end.
Definition function_file : dfile := match dirs places 0 function_lines with d :: r => mkDFile [] [(d, r)] | [] => mkDFile [] [] end.
Definition hit_at (id at_ s e : nat) : minfo := mkInfo (mkRange s e) id at_.
Example function_reports : parse_file check_cfg function_check = Some function_lines /\ List.length function_lines = 6 /\ df_dirs function_file = dirs places 0 function_lines /\
  reports (verify ascii_engine ascii_set 20 20 usual places function_check function_input)
    [hit_at 0 0 0 7; hit_at 0 10 16 25; hit_at 0 30 35 41; hit_at 0 40 46 49; hit_at 1 50 42 45].
Proof. splits; try (vm_compute; reflexivity). eexists. split; [vm_compute; reflexivity|]. vm_compute. reflexivity. Qed.
Ltac parts := repeat (first [apply Forall_nil|apply Forall_cons]); first [apply st_lit|eapply st_regex; [vm_compute; reflexivity|discriminate]|eapply st_def; [vm_compute; reflexivity|cbn; auto]|apply st_num_def; [cbv; lia|cbn; auto]].
Example function_checkable : checkable usual ascii_set function_file /\ suits usual function_input function_file.
Proof.
  unfold function_file. remember (dirs places 0 function_lines) as ds eqn:Eq. vm_compute in Eq. subst ds. split.
  - unfold checkable. splits.
    + split; [intros d []|]. cbn [df_blocks]. intros bl [<-|[]]. split; [reflexivity|]. cbn [snd]. intros d I. repeat (destruct I as [<-|I]; [discriminate|]). destruct I.
    + unfold df_dirs. cbn [df_prefix df_blocks flat_map app fst snd]. intros d I. repeat (destruct I as [<-|I]; [discriminate|]). destruct I.
    + unfold with_implied, implied_dirs. cbn. unfold part_ok. splits; [intros d []| |]; intros [|? ?] [|? ?] post E1 _ N; try discriminate; now elim N.
    + cbn [df_blocks]. intros bl [<-|[]]. cbn [fst snd]. split; [eapply lb_text; [reflexivity|vm_compute; reflexivity|discriminate]|]. change (implied_dirs usual) with (@nil dir). cbn [app]. unfold part_ok. splits.
      * intros d I. destruct I as [<-|I].
        { cbn [d_kind]. eapply se_static; [reflexivity|reflexivity|parts|reflexivity|apply Smart_Parts.distinct_nodup; reflexivity]. }
        destruct I as [<-|I]; [exact Logic.I|]. destruct I as [<-|I].
        { cbn [d_kind]. eapply se_linked; [reflexivity|reflexivity|reflexivity|]. apply Forall_cons; [|apply Forall_cons; [|apply Forall_nil]].
          - apply cm_static; [apply st_lit| |]; [intros t Et; injection Et as <-; right; cbn; intuition discriminate|intros t c Et I1; injection Et as <-; cbn in I1; intuition (subst; reflexivity)].
          - eapply cm_subst. constructor. }
        destruct I as [<-|[<-|[]]]; exact Logic.I.
      * apply (runs_when KNot is_not); [intros d Kd; unfold is_not; now rewrite Kd|]. cbn. apply Forall_forall. intros l I. repeat (destruct I as [<-|I]; [|]); try destruct I.
        unfold forbids. splits; [apply Forall_cons; [|apply Forall_nil]|apply NoDup_cons; [intros []|apply NoDup_nil]|intros _; vm_compute; discriminate].
        cbn [d_pat fixed]. splits; [discriminate|parts|apply Smart_Parts.distinct_nodup; reflexivity|discriminate|reflexivity].
      * apply (runs_when KDag is_dag); [intros d Kd; unfold is_dag; now rewrite Kd|]. cbn. apply Forall_forall. intros l I. repeat (destruct I as [<-|I]; [|]); try destruct I.
        all: unfold orders; split; [repeat (first [apply Forall_nil|apply Forall_cons]); cbn; discriminate|left; split; [reflexivity|]].
        all: apply Smart_Parts.distinct_nodup; vm_compute; reflexivity.
  - split; [left|left; reflexivity]. intros n _ _ _ H. apply nth_error_In in H. vm_compute in H. intuition discriminate.
Qed.
Example function_satisfied : exists out, satisfied usual function_input (finds usual function_input) function_file (e0 usual) out /\
  listed out [hit_at 0 0 0 7; hit_at 0 10 16 25; hit_at 0 30 35 41; hit_at 0 40 46 49; hit_at 1 50 42 45].
Proof.
  destruct function_reports as (Pa & _ & Df & R). destruct function_checkable as [Ck Su].
  exact (passing_input_partial ascii_set PatSet_Engine.ascii_set_ok 20 20 usual places function_check function_lines function_file function_input _ Pa Df Ck Su R).
Qed.
