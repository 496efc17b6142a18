(** C81: an input that meets what the check file asks passes. *)
From Coq Require Import String Permutation Sorted.
From Verif Require Import Base Text_Model Text_Spec Cursor_Model Cursor_Spec Check_Model Program_Model Check_Spec File_Spec File_Proofs Lit_Model Lit_Spec Lit_Proofs Lit_Props Env_Model Num_Model Gram_Model Parse_Model
  Parse_Spec Parse_Props Pat_Spec Regex_Model Smart_Model Smart_Spec Smart_Static Smart_Parts Smart_Props Chain_Spec Chain_Proofs Chain_Fixed Chain_Props PatSet_Model PatSet_Spec PatSet_Proofs PatSet_Dag PatSet_Props
  Choice_Spec Choice_Parts Choice_Props Sweep_Spec Sweep_Props Sim_Proofs Tame_Proofs Tame_File Whole_Model Whole_Spec Whole_Props Demand_Spec Demand_Proofs Demand_Props Scan_Spec Exact_Spec Exact_Proofs.
Open Scope string_scope.
Open Scope list_scope.
Open Scope nat_scope.
Ltac splits := repeat match goal with |- _ /\ _ => split end.

Section Exact.
Context (T : set_engine) (OK : set_ok T) (fuel rounds : nat) (o : options).
Notation E := ascii_engine.
Notation L := (whole_lang E T fuel rounds o).
Notation ci := (o_ci o).
Notation strict := (o_strict o).
Notation Tm := (tame L (e0 o) false).
Notation compiled_tame := (compiled_tame T fuel rounds o).
Notation compiled_line := (compiled_line T fuel rounds o).

Section Input.
Context (b : bytes).
Lemma found_tame (p : wpat E) s e en i en' : pm (l:=L) p b (mkRange s e) en = Val (mkRes Good (Some i), en') -> s <= rstart (i_span i) <= rend (i_span i) -> rend (i_span i) <= e -> e <= length b ->
  Check_Spec.found (L:=Tm) b p s e en i en'.
Proof.
  intros R B1 B2 B3. exists (mkRes Good (Some i)). split; [|split; reflexivity]. refine (tame_pm_good L false p b (mkRange s e) en _ en' _ _ R); [apply insideb_mk; lia|]. split; [reflexivity|]. exists i. split; [reflexivity|]. cbn [rstart rend]. lia.
Qed.
Lemma surely_found d k p s e en i en' : compiled o d k p -> searches k = true -> searchable o d -> surely o fuel b d s e en i en' -> Check_Spec.found (L:=Tm) b p s e en i en'.
Proof.
  intros (K & W & C) Sk Sd H.
  assert (C' : (if d_literal d then compile_literal E strict (d_pat d) else compile_pattern E ci strict (d_pat d)) = Val (w_matcher E p)) by (destruct k; try discriminate; exact C).
  destruct (surely_pattern fuel o b d _ s e en i en' Sd C' H) as (R & B1 & B2 & B3). apply found_tame; auto. cbn [pm whole_lang]. rewrite W. cbn [dir_pat sp_line sp_at]. rewrite R. reflexivity.
Qed.
Lemma found_surely d k p s e en i en' : compiled o d k p -> searches k = true -> searchable o d -> (has_substitution d = true -> exists gs, cut_parts ci strict (parts_of (d_pat d)) gs) -> s <= e <= length b ->
  Check_Spec.found (L:=L) b p s e en i en' -> surely o fuel b d s e en i en'.
Proof.
  intros (K & W & C) Sk Sd Ct B (m & R & Ty & In). cbn [pm whole_lang] in R. rewrite W in R. cbn [dir_pat sp_line sp_at] in R. unfold Whole_Model.settled in R.
  destruct (try_match _ _ _ _ _ _ _ _ _) as [r|] eqn:Tr; [subst r|discriminate].
  assert (C' : (if d_literal d then compile_literal E strict (d_pat d) else compile_pattern E ci strict (d_pat d)) = Val (w_matcher E p)) by (destruct k; try discriminate; exact C).
  apply (pattern_surely fuel o b d (w_matcher E p)); auto. destruct (pattern_answer fuel o d _ b s e en _ Sd C' B Tr) as [(i' & Er & _)|(er & Er & Le)]; cbn [fst] in Er; subst m; [|discriminate]. cbn in In. injection In as ->. exact Tr.
Qed.
Lemma surely_found_label d p s e en i en' : compiled o d KLabel p -> labelled_by o d -> surely o fuel b d s e en i en' -> Check_Spec.found (L:=Tm) b p s e en i en'.
Proof.
  intros (K & W & C) Ld H. destruct (surely_label fuel o b d _ s e en i en' Ld C H) as (R & B1 & B2 & B3). apply found_tame; auto. cbn [pm whole_lang]. rewrite W. cbn [dir_pat sp_line sp_at]. rewrite R. reflexivity.
Qed.
Lemma avoids_absent ds (ps : list (wpat E)) s e en : (ds <> [] -> forbids o T ds) -> map (w_pat E) ps = map dir_pat ds -> avoids o b ds s e -> absent (L:=Tm) b ps s e en.
Proof.
  intros F Eq A. destruct ds as [|d ds]; [left; destruct ps; [reflexivity|discriminate]|]. assert (Ne : d :: ds <> []) by discriminate.
  assert (B : s <= e <= length b) by (destruct A as [A|[A _]]; [discriminate|exact A]).
  right. destruct (not_answer T OK fuel rounds o (d :: ds) ps Ne (F Ne) Eq b s e (e0 o) B) as (m & R & X). exists m, en. destruct X as [(_ & _ & X)|[O _]]; [contradiction|]. split; [|exact O].
  cbn [nm tame]. unfold tame_nm. rewrite (insideb_mk b s e B), R, O. reflexivity.
Qed.
Lemma meets_fires stop d k p pos en is en' : compiled o d k p -> (searches k = true -> searchable o d) -> meets b (surely o fuel b) stop d k pos en is en' -> fires (L:=Tm) b stop k p pos en is en'.
Proof.
  intros C Sd F. assert (X : searches k = true -> forall s e en i en', surely o fuel b d s e en i en' -> Check_Spec.found (L:=Tm) b p s e en i en').
  { intros K s e en1 i en2 H. eapply surely_found; eauto. }
  assert (Q : forall k, searches k = true -> (forall s e en i en', surely o fuel b d s e en i en' -> Check_Spec.found (L:=Tm) b p s e en i en') -> meets b (surely o fuel b) stop d k pos en is en' -> fires (L:=Tm) b stop k p pos en is en').
  { clear. intros k K X F. induction F; try discriminate.
    - apply (F_plain (L:=Tm)); auto.
    - eapply (F_next (L:=Tm)); eauto.
    - eapply (F_same (L:=Tm)); eauto.
    - apply (F_count_1 (L:=Tm)); auto.
    - eapply (F_count_S (L:=Tm)); eauto. }
  destruct k; try (apply Q; auto; now apply X); try (inversion F; fail).
  inversion F; subst; [now apply (F_empty (L:=Tm))|apply (F_empty_eof (L:=Tm))].
Qed.
Lemma gathers_dag ds (ps : list (wpat E)) s e en is en' : ds <> [] -> orders o T ds -> map (w_pat E) ps = map dir_pat ds -> (forall d, In d ds -> is_text d = true) -> gathers o b ds s e en is en' ->
  exists ms, dm (l:=Tm) ps b (mkRange s e) en = Val (ms, en', Some (last_end s is)) /\ ms_ok ms = true /\ infos ms = is.
Proof.
  intros Ne Od Eq At G. assert (A : forallb is_text ds = true) by (apply forallb_forall; auto). pose proof Od as (F & Or).
  destruct G as [is _ B Sw|d i j cs vs -> N _ _ _ _ _]; [|specialize (At d (or_introl eq_refl)); congruence].
  assert (D : NoDup (map (text_of o) ds)) by (destruct Or as [[_ D]|(d & -> & N & _)]; [exact D|specialize (At d (or_introl eq_refl)); congruence]).
  pose proof (fixed_all o ds F) as F1.
  assert (Tx : map (literal_text_of strict) (map dir_pat ds) = map (text_of o) ds).
  { rewrite map_map. clear -A. induction ds as [|d ds IH]; [reflexivity|]. cbn [map forallb] in *. apply andb_true_iff in A as [A1 A2]. now rewrite text_written, IH. }
  destruct (texts_as_literals E T ci strict (o_scoped o) fuel (map dir_pat ds) F1 ltac:(now rewrite Tx) ltac:(now rewrite all_texts)) as (m & ls & C & Et & Es & M).
  assert (Nl : ls <> []) by (intros ->; rewrite Tx in Et; destruct ds; [congruence|discriminate]).
  assert (Nd : NoDup (map lit_text ls)) by (rewrite Et, Tx; exact D).
  assert (En : entries ls = text_entries o ds) by (now apply entries_are). rewrite <- En in Sw.
  destruct (ok_dm (lit_lang ci) (lit_lang_ok ci) ls b s e tt B Nl) as (ms & en1 & pos & R & K).
  destruct (dag_texts_swept ci ls b s e tt ms en1 pos B Nl Nd R) as [S1 S2].
  destruct (ms_ok ms) eqn:Ok; [|elim (S2 eq_refl is Sw)]. destruct (S1 eq_refl) as (Sw' & Hm & ->). pose proof (swept_once b ls e s _ _ (proj2 B) (proj1 B) Nl Nd Sw' Sw) as Ei.
  specialize (K eq_refl). rewrite Ei in *. exists ms. splits; auto.
  assert (Dm : dm (l:=L) ps b (mkRange s e) en = Val (ms, en, Some (last_end s is))).
  { cbn [dm whole_lang]. unfold set_of. rewrite Eq, C. cbn [bind]. rewrite (proj2 (M b rounds (mkRange s e) en)). cbn [settled]. cbn [dm lit_lang] in R.
    destruct (lit_dag ls b (mkRange s e)) as [[ms0 pos0]| |]; try discriminate. cbn [bind] in *. injection R as -> _ ->. reflexivity. }
  cbn [dm tame]. unfold tame_dm. rewrite (insideb_mk b s e B), Dm, Ok. cbn [negb orb].
  assert (Db : dagb (mkRange s e) ms (Some (last_end s is)) = true) by (apply dagb_spec; cbn [rstart]; now rewrite Ei). rewrite Db. reflexivity.
Qed.
Notation rest_ok := (rest_ok T o).
Lemma met_accepts stop ds nds gap pos en out en' : met o b (surely o fuel b) stop ds nds gap pos en out en' -> forall (ls : list (line Tm)) (nots : list (wpat E)), Forall2 compiled_tame ds ls ->
  map (w_pat E) nots = map dir_pat nds -> rest_ok nds ds -> (forall d, In d ds -> d_kind d = KDag -> is_text d = true) -> accepts (L:=Tm) b stop ls nots gap pos en out en'.
Proof.
  induction 1 as [nds gap pos en A|d ds nds gap pos en out en' Kd A IH|d ds nds gap pos en is en1 out en' F A St Ac IH|gs ds nds gap pos en is en1 out en' N Fg H G A gap' Tc Ac IH]; intros ls nots Fl En R Dt.
  - inversion Fl; subst. apply (A_end (L:=Tm)). eapply avoids_absent; [|exact En|exact A]. now apply rest_forbids with [].
  - inversion Fl as [|? l ? ls' C Fl']; subst. destruct l as [k p]. pose proof C as (K & W & _). cbn [l_kind l_pat] in K, W. assert (k = KNot) as -> by (rewrite K; exact Kd). apply (A_not (L:=Tm)). apply IH; auto; [|now apply rest_more|intros x Ix; apply Dt; now right].
    etransitivity; [exact (map_app (w_pat E) nots [p])|]. etransitivity; [|symmetry; apply map_app]. exact (f_equal2 (@app _) En (f_equal (fun x => [x]) W)).
  - inversion Fl as [|? l ? ls' C Fl']; subst. destruct l as [k p]. pose proof C as (K & W & _). cbn [l_kind l_pat] in K, W. apply (A_pos (L:=Tm)) with en1.
    + apply meets_fires with d; auto; [|now rewrite K]. intros Sk. destruct R as (R & _). specialize (R d (or_introl eq_refl)). rewrite <- K in R. now destruct k.
    + eapply avoids_absent; [|exact En|exact A]. intros X. eapply rest_forbids; eauto.
    + exact St.
    + apply IH; auto; [eapply rest_next; exact R|intros x Ix; apply Dt; now right].
  - apply Forall2_app_inv_l in Fl as (lg & ls' & Fg' & Fl & ->).
    assert (X : exists ps : list (wpat E), lg = map (mkLine (L:=Tm) KDag) ps /\ Forall2 (fun d p => compiled o d KDag p) gs ps).
    { clear -Fg' Fg. induction Fg' as [|d [k p] gs lg C F IH]; [exists []; split; [reflexivity|constructor]|]. inversion Fg; subst. destruct IH as (ps & -> & F'); auto. pose proof C as (K & _). cbn [l_kind] in K. assert (k = KDag) as -> by (rewrite K; assumption).
      exists (p :: ps). split; [reflexivity|]. constructor; [exact C|exact F']. }
    destruct X as (ps & -> & Gp). assert (Od : orders o T gs) by (destruct R as (_ & _ & _ & R); exact (R [] gs ds eq_refl Fg N)).
    assert (Ta : forall d, In d gs -> is_text d = true) by (intros d I; apply Dt; [apply in_app_iff; now left|exact (proj1 (Forall_forall _ _) Fg d I)]).
    destruct (gathers_dag gs ps pos stop en is en1 N Od (compiled_pats _ _ _ _ Gp) Ta G) as (ms & D & Ok & <-).
    pose proof (compiled_head T fuel rounds o ds ls' Fl) as Hd.
    apply (A_dag (L:=Tm)) with en1 (Some (last_end pos (infos ms))) gap'; auto.
    + intros ->. inversion Gp; subst. now elim N.
    + rewrite Hd. destruct ds as [|d r]; [discriminate|]. intros [= X]. now elim (H d r eq_refl).
    + eapply avoids_absent; [|exact En|exact A]. intros X. eapply rest_forbids; eauto.
    + rewrite Tc. unfold touchy, touches. rewrite Hd. destruct ds as [|d r]; [tauto|]. destruct (d_kind d); tauto.
    + apply IH; auto; [eapply rest_group; exact R|intros d I; apply Dt; apply in_app_iff; now right].
Qed.
Definition dag_texts (ds : list dir) : Prop := forall d, In d ds -> d_kind d = KDag -> is_text d = true.
Lemma met_part stop ls pos en out en' ds : met o b (surely o fuel b) stop ds [] false pos en out en' -> Forall2 compiled_tame ds ls -> Demand_Spec.part_ok o T ds -> dag_texts ds -> accepts (L:=Tm) b stop ls [] false pos en out en'.
Proof. intros A F (P1 & P2 & P3) Dt. eapply met_accepts; eauto. unfold Demand_Props.rest_ok. splits; auto. Qed.
Lemma found_labels en from ds is : labels_found b (surely o fuel b) en from ds is -> forall ps : list (wpat E), Forall2 (fun d p => compiled o d KLabel p /\ labelled_by o d) ds ps -> labels_at (L:=Tm) b en from ps is.
Proof.
  induction 1 as [from|from d ds i is en' s F Le La IH]; intros ps Fl; inversion Fl as [|? p ? ps' [C Ld] Fl']; subst; [apply (La_nil (L:=Tm))|].
  apply (La_cons (L:=Tm)) with en' s; auto. eapply surely_found_label; eauto.
Qed.
Lemma met_parts start ds drest is en out en' : parts_met o b (surely o fuel b) start ds drest is en out en' ->
  forall body rest, Forall2 compiled_tame ds body -> Forall2 (Forall2 compiled_tame) drest rest -> Demand_Spec.part_ok o T ds -> Forall (Demand_Spec.part_ok o T) drest -> dag_texts ds -> Forall dag_texts drest ->
  parts_hold (L:=Tm) b start body rest is en out en'.
Proof.
  induction 1 as [start ds en out en' A|start ds en out en1 e i next s rest is out' en' La A Le Ph IH]; intros body lrest F Fr Po Pr Dt Dr.
  - inversion Fr; subst. apply (Ph_last (L:=Tm)). eapply met_part; eauto.
  - inversion Fr as [|? ln ? lrest' Fn Fr']; subst. inversion Pr; subst. inversion Dr; subst. apply (Ph_more (L:=Tm)) with en1 e s; auto. eapply met_part; eauto.
Qed.
End Input.

(** * Files *)
Notation imp := (implicit_pat E o).
Lemma implied_texts : dag_texts (implied_dirs o).
Proof. intros d I. unfold implied_dirs in I. destruct (o_imp o); [destruct I|]. destruct I as [<-|[]]. discriminate. Qed.
Lemma with_implied_texts ds : dag_texts ds -> dag_texts (with_implied o ds).
Proof.
  intros H d I. unfold with_implied in I. apply in_app_iff in I as [I|I]; [now apply implied_texts|]. apply in_flat_map in I as (x & Ix & [<-|I]); [now apply H|]. apply implied_texts. destruct (d_kind x); first [exact I|destruct I].
Qed.
Notation compiled_file := (compiled_file T fuel rounds o).
Lemma satisfied_file f f' b out : checkable o T f -> (forall d, In d (df_dirs f) -> settled_dir o d) -> compiled_file f f' -> satisfied o b (surely o fuel b) f (e0 o) out -> file_holds (L:=Tm) b imp (tf L (e0 o) false f') (e0 o) out.
Proof.
  intros ((C1 & C2) & Z & Pp & Pb) Sd [F1 F2] (is & en' & La & H). exists is, en'. split.
  - apply (found_labels b (e0 o) 0 _ is La). cbn [tf f_blocks]. rewrite map_map. clear -F2 Pb. induction F2 as [|bl bl' bls bls' (Cl & Fb) F IH]; [constructor|]. cbn [map fst]. constructor; [split; [exact Cl|apply (Pb bl (or_introl eq_refl))]|].
    apply IH. intros x I. apply Pb. now right.
  - assert (Fp : Forall2 compiled_tame (with_implied o (df_prefix f)) (with_implicit (L:=Tm) imp (f_prefix (tf L (e0 o) false f')))).
    { cbn [tf f_prefix]. pose proof (tl_implicit L (e0 o) false imp (f_prefix f')) as X. change (@implicit_pat E o) with imp in X. rewrite <- X. apply tame_lines. now apply with_implied_compiled. }
    assert (Fb : Forall2 (Forall2 compiled_tame) (map (fun bl => implied_dirs o ++ snd bl) (df_blocks f)) (map (fun bl => implied (L:=Tm) imp ++ snd bl) (f_blocks (tf L (e0 o) false f')))).
    { cbn [tf f_blocks]. rewrite map_map. clear -F2. induction F2 as [|bl bl' bls bls' (Cl & Fb) F IH]; [constructor|]. cbn [map]. constructor; [|exact IH]. cbn [snd]. rewrite <- (tl_implied L (e0 o) false imp), <- map_app.
      apply tame_lines. apply Forall2_app; [apply implied_compiled|exact Fb]. }
    assert (Po : Forall (Demand_Spec.part_ok o T) (map (fun bl => implied_dirs o ++ snd bl) (df_blocks f))).
    { apply Forall_forall. intros x I. apply in_map_iff in I as (bl & <- & I). now apply Pb. }
    assert (Tp : dag_texts (with_implied o (df_prefix f))).
    { apply with_implied_texts. intros d I. apply Sd. unfold df_dirs. apply in_app_iff. now left. }
    assert (Tb : Forall dag_texts (map (fun bl => implied_dirs o ++ snd bl) (df_blocks f))).
    { apply Forall_forall. intros x I. apply in_map_iff in I as (bl & <- & I). intros d Id. apply in_app_iff in Id as [Id|Id]; [now apply implied_texts|]. apply Sd. unfold df_dirs. apply in_app_iff. right.
      apply in_flat_map. exists bl. split; [exact I|now right]. }
    cbv zeta in *. revert Fp Fb Po Pp Tp Tb H. generalize (with_implied o (df_prefix f)) (with_implicit (L:=Tm) imp (f_prefix (tf L (e0 o) false f'))) (map (fun bl => implied_dirs o ++ snd bl) (df_blocks f)) (map (fun bl => implied (L:=Tm) imp ++ snd bl) (f_blocks (tf L (e0 o) false f'))).
    intros dp lp dbs lbs Fp Fb Po Pp Tp Tb H. pose proof (met_parts b) as Ph.
    destruct Fp as [|d l dp lp Cd Fp]; [destruct Fb as [|db lb dbs lbs Cb Fb]; [|destruct is as [|i is]]|]; try (apply (Ph _ _ _ _ _ _ _ H); auto; fail).
    1: destruct H as (s & out' & Le & -> & H). exists s, out'. splits; auto. inversion Po; subst. inversion Tb; subst. apply (Ph _ _ _ _ _ _ _ H); auto.
    all: apply (Ph _ _ _ _ _ _ _ H); auto; now constructor.
Qed.
(** ** The sets *)
Notation PN := (PN E T o).
Definition same_set (ps ps' : list (wpat E)) : Prop := PN ps.
Definition any_pat (p p' : wpat E) : Prop := True.
Lemma group_sets_ok : (forall (g g' : group L), group_like (L:=L) (L':=L) any_pat same_set same_set g g' -> Forall PN (group_sets E T fuel rounds o g)) /\
  (forall (t t' : tree L), tree_like (L:=L) (L':=L) any_pat same_set same_set t t' -> Forall PN (tree_sets E T fuel rounds o t)).
Proof.
  apply group_tree_ind; cbn [group_sets tree_sets].
  - intros ps g' H. inversion H as [? ? N| | | | |]; subst. repeat constructor. apply N.
  - intros ds g' H. inversion H as [|? ? N| | | |]; subst. repeat constructor. apply N.
  - intros ds g IH g' H. inversion H as [| |? ? ? ? N G| | |]; subst. constructor; [apply N|eauto].
  - intros. constructor.
  - intros. constructor.
  - intros t IH g' H. inversion H; subst. eauto.
  - intros g IH t' H. inversion H; subst. eauto.
  - intros ps l IHl r IHr t' H. inversion H as [|? ? ? ? ? ? N Hl Hr| |]; subst. constructor; [apply N|]. apply Forall_app. split; eauto.
  - intros ps l IHl t' H. inversion H as [| |? ? ? ? N Hl|]; subst. constructor; [apply N|eauto].
  - intros ps l IHl t' H. inversion H as [| | |? ? ? ? N Hl]; subst. constructor; [apply N|eauto].
Qed.
Lemma sets_ok secs secs' : Forall2 (section_like (L:=L) (L':=L) any_pat any_pat same_set same_set) secs secs' -> Forall PN (flat_map (section_sets E T fuel rounds o) secs).
Proof.
  induction 1 as [|x x' secs secs' X F IH]; cbn [flat_map]; [constructor|]. apply Forall_app. split; [|exact IH]. destruct X as [p p' gs gs' _ G|g g' G]; cbn [section_sets].
  - induction G as [|g g' gs gs' G Gs IHg]; cbn [flat_map]; [constructor|]. apply Forall_app. split; [|exact IHg]. eapply (proj1 group_sets_ok); eauto.
  - eapply (proj1 group_sets_ok); eauto.
Qed.
Lemma not_set ds (ps : list (wpat E)) : ds <> [] -> forbids o T ds -> map (w_pat E) ps = map dir_pat ds -> PN ps.
Proof.
  intros Ne F Eq. destruct (not_answer T OK fuel rounds o ds ps Ne F Eq [] 0 0 (e0 o) ltac:(cbn; lia)) as (m & R & _). cbn [nm whole_lang] in R. unfold Whole_Props.PN. destruct (set_of E T o ps) as [x| |]; [eauto|discriminate..].
Qed.
Lemma dag_set ds (ps : list (wpat E)) : ds <> [] -> orders o T ds -> map (w_pat E) ps = map dir_pat ds -> PN ps.
Proof.
  intros Ne (F & Or) Eq. unfold Whole_Props.PN, set_of. rewrite Eq. pose proof (fixed_all o ds F) as F1. destruct Or as [[A D]|(d & -> & A & Bd)].
  - assert (Tx : map (literal_text_of strict) (map dir_pat ds) = map (text_of o) ds).
    { rewrite map_map. clear -A. induction ds as [|d ds IH]; [reflexivity|]. cbn [map forallb] in *. apply andb_true_iff in A as [A1 A2]. now rewrite text_written, IH. }
    destruct (texts_as_literals E T ci strict (o_scoped o) fuel (map dir_pat ds) F1 ltac:(now rewrite Tx) ltac:(now rewrite all_texts)) as (m & ls & C & _). eauto.
  - pose proof (set_compiles E T ci strict (map dir_pat [d]) OK F1 ltac:(repeat constructor; intros []) ltac:(cbn; unfold is_text in A; now rewrite A)) as X.
    unfold expressions in X. cbn [map dir_pat sp_pat] in X, Bd. destruct (rs_build T ci _) eqn:Eb; [destruct X as (m & _ & X); exists (SRegex E T (map sp_at (map dir_pat [d])) m); exact X|now elim Bd].
Qed.
Lemma run_pats k (P : list dir -> Prop) (Q : list (pat L) -> Prop) ds ls : Forall2 compiled_line ds ls -> (forall rd (ps : list (pat L)), rd <> [] -> P rd -> map (w_pat E) ps = map dir_pat rd -> Q ps) -> each_run k P ds -> runs (L:=L) k Q ls.
Proof.
  intros F HQ Er pre run post -> A N. apply Forall2_app_inv_r in F as (d1 & d2 & _ & F & ->). apply Forall2_app_inv_r in F as (d3 & d4 & F & _ & ->).
  assert (A' : Forall (fun d => d_kind d = k) d3) by (clear -F A; induction F as [|d l ds ls (K & _) F IH]; constructor; inversion A; subst; auto; congruence).
  assert (N3 : d3 <> []) by (intros ->; inversion F; subst; now elim N).
  apply (HQ d3); auto; [apply (Er d1 d3 d4 eq_refl A' N3)|]. clear -F. induction F as [|d l ds ls (_ & W & _) F IH]; [reflexivity|]. cbn [map]. now rewrite W, IH.
Qed.
Lemma part_sets ds ls : Forall2 compiled_line ds ls -> Demand_Spec.part_ok o T ds -> runs (L:=L) KNot PN ls /\ runs (L:=L) KDag PN ls.
Proof. intros F (_ & P2 & P3). split; [apply (run_pats KNot (forbids o T) PN ds); auto; exact not_set|apply (run_pats KDag (orders o T) PN ds); auto; exact dag_set]. Qed.
Lemma file_sets f f' secs : checkable o T f -> compiled_file f f' -> compile (L:=L) imp (file_lines f') = Val secs -> exists ms, map_res (set_of E T o) (flat_map (section_sets E T fuel rounds o) secs) = Val ms.
Proof.
  intros Ck Cf C. destruct (file_sane T OK fuel rounds o f f' Ck Cf) as [Fo _]. apply map_res_ok.
  assert (X : like (Forall2 (section_like (L:=L) (L':=L) any_pat any_pat same_set same_set)) (compile (L:=L) imp (file_lines f')) (compile (L:=L) imp (file_lines f'))).
  { apply (compile_sim_implicit (L:=L) (L':=L) _ _ _ _ (fun _ => @eq (wpat E))) with (QN := PN) (QD := PN).
    - intros; exact I.
    - intros; exact I.
    - intros ps ps' _ P _. exact P.
    - intros ps ps' _ P _. exact P.
    - destruct imp as [p|]; [exact (il_some (L:=L) (L':=L) (fun _ => @eq (wpat E)) p p eq_refl)|exact (il_none (L:=L) (L':=L) (fun _ => @eq (wpat E)))].
    - generalize (file_lines f'). intros ls. induction ls as [|[k p] ls IH]; constructor; auto. constructor. reflexivity.
    - intros bs Eb. rewrite (compile_lines_file (L:=L) imp f' Fo) in Eb. destruct (anchoredb _ _); [|discriminate]. injection Eb as <-. destruct Ck as (_ & _ & Pp & Pb). destruct Cf as [F1 F2]. unfold the_blocks. apply Forall_app. split.
      + pose proof (with_implied_compiled T fuel rounds o _ _ F1) as F3. destruct (with_implicit (L:=L) imp (f_prefix f')) as [|w ws] eqn:W; [constructor|]. constructor; [|constructor]. exact (part_sets _ _ F3 Pp).
      + apply Forall_forall. intros x I. apply in_map_iff in I as (bl' & <- & I). cbn [lab_block snd]. destruct (blocks_in _ _ _ _ _ _ _ F2 I) as (bl & Ib & _ & Fb).
        eapply part_sets; [|exact (proj2 (Pb bl Ib))]. apply Forall2_app; [apply implied_compiled|exact Fb]. }
  rewrite C in X. inversion X as [? ? Fx| |]; subst. exact (sets_ok _ _ Fx).
Qed.
(** ** Compiling *)
Lemma dirs_compile f : checkable o T f -> (forall d, In d (df_dirs f) -> settled_dir o d) -> Forall (compiles_dir o) (df_dirs f).
Proof.
  intros ((C1 & C2) & _ & Pp & Pb) Sd. apply Forall_forall. intros d I. pose proof (Sd d I) as (Sf & _). unfold df_dirs in I. apply in_app_iff in I as [I|I].
  - assert (Sx : match d_kind d with KPlain | KCount _ | KNext | KSame => searchable o d | _ => True end).
    { apply (proj1 Pp). unfold with_implied. apply in_app_iff. right. apply in_flat_map. exists d. split; [exact I|now left]. }
    specialize (C1 d I). unfold compiles_dir, searched in *. destruct (d_kind d); try exact Logic.I; try (now elim C1); apply (searchable_compiles fuel); auto.
  - apply in_flat_map in I as (bl & Ib & [<-|I]).
    + destruct (C2 bl Ib) as [K _]. unfold compiles_dir. rewrite K. apply (label_compiles fuel). now apply Pb.
    + assert (Sx : match d_kind d with KPlain | KCount _ | KNext | KSame => searchable o d | _ => True end) by (apply (proj1 (proj2 (Pb bl Ib))); apply in_app_iff; now right).
      pose proof (proj2 (C2 bl Ib) d I) as K. unfold compiles_dir, searched in *. destruct (d_kind d); try exact Logic.I; try (now elim K); apply (searchable_compiles fuel); auto.
Qed.
(** C81: if the input meets what the directives ask, then the run passes, and reports these places. *)
Theorem satisfied_passes pos text cs f b out0 : parse_file (o_parse o) text = Some cs -> df_dirs f = dirs pos 0 cs -> checkable o T f -> suits o b f ->
  (forall d, In d (df_dirs f) -> settled_dir o d) -> complete o f -> b <> [] \/ o_allow o = true ->
  satisfied o b (surely o fuel b) f (e0 o) out0 -> exists out, reports (verify E T fuel rounds o pos text b) out /\ listed out0 out.
Proof.
  intros Pa Df Ck (Su & Rm) Sd (Sta & Non) Al H. pose proof (dirs_compile f Ck Sd) as Cd. rewrite Df in Cd. destruct (compile_each_ok T fuel rounds o pos cs 0 Cd) as (ls & Ce).
  pose proof (compiled_each T fuel rounds o pos cs 0 ls Ce) as Cl. rewrite <- Df in Cl. destruct (cut_file T fuel rounds o f ls (proj1 Ck) Cl) as (f' & Cf & Fl). destruct (file_sane T OK fuel rounds o f f' Ck Cf) as [Fo Sa].
  pose proof (satisfied_file f f' b out0 Ck Sd Cf H) as Fh. pose proof Cf as [F1 F2]. pose proof Ck as ((C1 & C2) & Z & Pp & Pb).
  apply (tame_pass L false (o_allow o) imp f' b (e0 o)) in Fh; auto.
  - destruct Fh as (t & Fc & Er & Em). exists (sort_matches (t_matches t)). split; [|rewrite Em; apply sort_listed].
    exists t. split; [|unfold into_result, t_is_ok; now rewrite Er]. unfold verify. rewrite Pa. unfold Whole_Model.compile_file. rewrite Ce. cbn [bind]. rewrite <- Fl. unfold filecheck in Fc.
    destruct (compile (L:=L) imp (file_lines f')) as [secs| |] eqn:Es; try discriminate. cbn [bind] in *. destruct (file_sets f f' secs Ck Cf Es) as (ms & ->). exact Fc.
  - destruct Su as [Su|[Su Sr]]; [now left|right]. rewrite Su in F2. inversion F2. split; [reflexivity|]. intros l I. destruct (compiled_in _ _ _ _ _ _ _ F1 I) as (d & Id & (K & _)). rewrite K. now apply Sr.
  - destruct Rm as [Rm|Rm]; [left|right].
    + pose proof (with_implied_compiled T fuel rounds o _ _ F1) as X. rewrite Rm in X. now inversion X.
    + intros p Hp i en' F. destruct (df_blocks f) as [|bl rest] eqn:Eb; destruct (f_blocks f') as [|bl' rest'] eqn:Eb'; try (now inversion F2).
      cbn in Hp. injection Hp as <-. assert (Clb : compiled o (fst bl) KLabel (fst bl')) by (now inversion F2 as [|? ? ? ? (X & _) _]).
      apply (Rm bl rest i en' eq_refl). eapply found_label; [exact Clb|apply (Pb bl (or_introl eq_refl))|lia|exact F].
  - rewrite Fl. destruct Non as [Non|Non]; [left|right].
    + intros ->. inversion Cl as [X|]. now elim Non.
    + unfold implicit_pat. destruct (o_imp o); [now elim Non|discriminate].
  - intros pre l post Eq Rl. rewrite Eq in F1. apply Forall2_app_inv_r in F1 as (d1 & d2 & G1 & G2 & E1). inversion G2 as [|d ? d3 ? (K & _) G3]; subst.
    rewrite K in Rl. destruct (Sta d1 d d3 E1 Rl) as (x & Ix & Px). clear -G1 Ix Px. induction G1 as [|y z d1 pre (K & _) G1 IH]; [destruct Ix|]. destruct Ix as [->|Ix]; [exists z; split; [now left|now rewrite K]|]. destruct (IH Ix) as (w & Iw & Pw). exists w. split; [now right|exact Pw].
Qed.

(** C81: the check file passes exactly the inputs that meet what it asks, and the places reported are those of the directives. *)
Theorem passes_exactly pos text cs f b : parse_file (o_parse o) text = Some cs -> df_dirs f = dirs pos 0 cs -> checkable o T f -> suits o b f ->
  (forall d, In d (df_dirs f) -> settled_dir o d) -> complete o f -> b <> [] \/ o_allow o = true ->
  (forall out, reports (verify E T fuel rounds o pos text b) out -> exists out0, satisfied o b (surely o fuel b) f (e0 o) out0 /\ listed out0 out) /\
  (forall out0, satisfied o b (surely o fuel b) f (e0 o) out0 -> exists out, reports (verify E T fuel rounds o pos text b) out /\ listed out0 out).
Proof.
  intros Pa Df Ck Su Sd Co Al. split.
  - intros out R. destruct (passing_answers T OK fuel rounds o pos text cs f b out Pa Df Ck Su R) as (out0 & H & Hl). exists out0. split; [|exact Hl]. revert H. apply (satisfied_change o b (answers T fuel rounds o b)).
    intros d I X s e en i en' (k & p & C & B & F). pose proof C as (K & _). destruct X as [X|X].
    + destruct (searched_line T o f d Ck I X) as [Sk Sx]. rewrite <- K in Sk. apply (found_surely b d k p); auto. intros Hs. now apply (proj1 (Sd d I)).
    + destruct (label_line T o f d Ck X) as [Kl Ld]. assert (k = KLabel) as -> by congruence. apply sr_found; [now apply (label_static o)|]. now apply (found_label T fuel rounds o d p).
  - intros out0. now apply (satisfied_passes pos text cs f b out0).
Qed.
End Exact.
Print Assumptions satisfied_passes.
Print Assumptions passes_exactly.

(** ** A case: the check file of [function_check] *)
Lemma function_settled : (forall d, In d (df_dirs function_file) -> settled_dir usual d) /\ complete usual function_file.
Proof.
  unfold function_file. remember (dirs Whole_Props.places 0 function_lines) as ds eqn:Eq. vm_compute in Eq. subst ds. split.
  - unfold df_dirs. cbn [df_prefix df_blocks flat_map app fst snd]. intros d I. unfold settled_dir.
    repeat (destruct I as [<-|I]; [split; [cbn [d_kind d_pat]; intros Sd Hs; try discriminate Hs; try (now elim Sd)|intros Kd; try discriminate Kd; try reflexivity]|]); try destruct I.
    eexists. cbn [parts_of]. match goal with |- cut_parts _ _ (?q :: ?l) _ => change (q :: l) with ([q] ++ l) end. apply ct_run; [|right; do 2 eexists; split; reflexivity|apply ct_sub; [constructor|apply ct_nil]].
    unfold fixed_run. splits; [discriminate|repeat constructor| | | |].
    + intros g v [Z|[]]; discriminate.
    + vm_compute. constructor.
    + intros t [Z|[]]. injection Z as <-. unfold plain_literal. splits; [discriminate|right; cbn; intuition discriminate|]. intros c I. cbn in I. intuition (subst; reflexivity).
    + intros t [Z|[]]; discriminate.
  - split; [|left; discriminate]. intros pre d post Z. destruct pre; discriminate.
Qed.
Definition function_outcome (input : bytes) : Prop := exists out0, satisfied usual input (surely usual 20 input) function_file (e0 usual) out0.
Lemma function_exactly input : input <> [] -> lf_input input -> (function_outcome input <-> exists out, reports (verify ascii_engine ascii_set 20 20 usual Whole_Props.places function_check input) out).
Proof.
  intros Ne Lf. destruct function_reports as (Pa & _ & Df & _). destruct function_checkable as [Ck _]. destruct function_settled as [Sd Co].
  assert (Su : suits usual input function_file) by (split; [now left|left; reflexivity]).
  destruct (passes_exactly ascii_set PatSet_Engine.ascii_set_ok 20 20 usual Whole_Props.places function_check function_lines function_file input Pa Df Ck Su Sd Co (or_introl Ne)) as [A B]. split.
  - intros (out0 & H). destruct (B out0 H) as (out & R & _). eauto.
  - intros (out & R). destruct (A out R) as (out0 & H & _). unfold function_outcome. eauto.
Qed.
(** It is met by the input of [function_reports], but not if the register that is used is another one than was loaded. *)
Definition function_other : bytes := of_string ("fn MAIN" ++ nl ++ "ld ax 7 ld bx, 42 ;" ++ nl ++ "use ax use cx" ++ nl ++ "end ret").
Example function_exact : function_outcome function_input /\ ~ function_outcome function_other.
Proof.
  split.
  - apply function_exactly; [discriminate| |destruct function_reports as (_ & _ & _ & R); eauto]. intros n _ _ _ H. apply nth_error_In in H. vm_compute in H. intuition discriminate.
  - intros H. apply function_exactly in H as (out & t & V & R); [|discriminate|intros n _ _ _ H'; apply nth_error_In in H'; vm_compute in H'; intuition discriminate].
    vm_compute in V. injection V as <-. vm_compute in R. discriminate.
Qed.
