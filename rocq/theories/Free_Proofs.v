(** Directives that do not look at line ends do not depend on what the cursor knows about lines. *)
From Verif Require Import Base Text_Model Text_Spec Text_Proofs Cursor_Model Cursor_Spec Cursor_Proofs
  Check_Model Program_Model Check_Spec Check_Proofs Program_Proofs Accept_Proofs File_Spec File_Proofs.

Section Free.
Context {L : lang}.

(** The same state but for the end of the line and the kind of line ends. *)
Inductive sim : state L -> state L -> Prop :=
| Sim b blk e1 k1 e2 k2 en : rstart blk <= rend blk -> rend blk <= length b ->
    sim (mkState (mkCursor b blk e1 k1) en) (mkState (mkCursor b blk e2 k2) en).
Inductive rsim {A} : res (A * state L) -> res (A * state L) -> Prop :=
| RSP : rsim Panic Panic
| RSE : rsim Err Err
| RSV a s s' : sim s s' -> rsim (Val (a, s)) (Val (a, s')).
Hint Constructors sim rsim : core.

Lemma eol_total c : c_start c <= c_end c -> c_end c <= length (c_buf c) -> exists e, eol_in_block c = Val e.
Proof.
  intros H1 H2. unfold eol_in_block, next_newline_in_range.
  rewrite (bounds_of_ok (c_buf c) _ _ (c_start c) (c_end c) (begins_incl _ _) (stops_excl _ _)) by lia. cbn [bind].
  destruct (slice_ok (c_buf c) (mkRange (c_start c) (c_end c))) as [t T]; cbn; try lia.
  unfold find_next_crlf, find_next_lf. rewrite T. destruct (c_crlf c); cbn; eauto.
Qed.
Lemma set_start_total c n : c_start c <= c_end c -> c_end c <= length (c_buf c) ->
  exists e, set_start c n = Val (mkCursor (c_buf c) (mkRange (Nat.min n (c_end c)) (c_end c)) e (c_crlf c)).
Proof.
  intros H1 H2. unfold set_start. cbv zeta.
  set (c' := mkCursor (c_buf c) (mkRange (Nat.min n (c_end c)) (c_end c)) (c_eol c) (c_crlf c)).
  destruct (eol_total c') as [e E]; [cbn; unfold c_start, c_end; cbn; lia|exact H2|].
  destruct (Nat.compare n (c_start c)); [exists (c_eol c); reflexivity|rewrite E; cbn [bind]; eauto|].
  destruct (c_eol c <? c_start c'); [rewrite E; cbn [bind]; eauto|exists (c_eol c); reflexivity].
Qed.
Lemma move_start_sim s s' n : sim s s' -> exists z z', move_start s n = Val z /\ move_start s' n = Val z' /\ sim z z'.
Proof.
  intros [b blk e1 k1 e2 k2 en H1 H2]. unfold move_start. cbn [s_cur s_env].
  destruct (set_start_total (mkCursor b blk e1 k1) n) as [e E]; auto. destruct (set_start_total (mkCursor b blk e2 k2) n) as [e' E']; auto.
  rewrite E, E'. cbn [bind c_buf c_end c_block c_crlf]. do 2 eexists. split; [reflexivity|]. split; [reflexivity|].
  constructor; cbn; unfold c_end; cbn; lia.
Qed.
Lemma sim_block s s' : sim s s' -> search_block (s_cur s) = search_block (s_cur s').
Proof. intros []. reflexivity. Qed.
Lemma sim_range s s' lo hi : sim s s' -> search_range (s_cur s) lo hi = search_range (s_cur s') lo hi.
Proof. intros []. reflexivity. Qed.
Lemma sim_same s s' : sim s s' -> buf s = buf s' /\ s_env s = s_env s' /\ c_start (s_cur s) = c_start (s_cur s') /\ c_end (s_cur s) = c_end (s_cur s').
Proof. intros []. cbn. auto. Qed.
Lemma sim_env s s' e : sim s s' -> sim (mkState (s_cur s) e) (mkState (s_cur s') e).
Proof. intros []. cbn. auto. Qed.

Lemma match_mut_sim p r s s' : sim s s' -> rsim (match_mut p r s) (match_mut p r s').
Proof.
  intros H. destruct (sim_same _ _ H) as (B & E & _). unfold match_mut. rewrite B, E. destruct (pm p (buf s') r (s_env s')) as [[m e]| |]; cbn [bind]; auto.
  destruct (m_is_ok m); auto using sim_env.
Qed.
Lemma apply_plain_sim p s s' : sim s s' -> rsim (apply_plain p s) (apply_plain p s').
Proof.
  intros H. unfold apply_plain. rewrite (sim_block _ _ H). destruct (search_block (s_cur s')) as [r| |]; cbn [bind]; auto.
  destruct (match_mut_sim p r s s' H) as [| |m z z' Z]; cbn [bind]; auto.
  unfold advance. destruct (m_info m) as [i|]; [|cbn [bind]; auto]. destruct (m_is_ok m); cbn [bind]; auto.
  destruct (move_start_sim z z' (rend (i_span i)) Z) as (w & w' & -> & -> & W). cbn [bind]. auto.
Qed.
Lemma apply_dag_sim ds s s' : sim s s' -> rsim (apply_dag ds s) (apply_dag ds s').
Proof.
  intros H. destruct (sim_same _ _ H) as (B & E & _). unfold apply_dag. rewrite (sim_block _ _ H). destruct (search_block (s_cur s')) as [r| |]; cbn [bind]; auto.
  rewrite B, E. destruct (dm ds (buf s') r (s_env s')) as [[[ms e] [n|]]| |]; cbn [bind]; auto.
  - destruct (move_start_sim s s' n H) as (w & w' & W1 & W2 & W). unfold move_start in W1, W2.
    destruct (set_start (s_cur s) n); try discriminate. destruct (set_start (s_cur s') n); try discriminate. cbn [bind] in *. injection W1 as <-. injection W2 as <-.
    destruct (ms_ok ms); auto. constructor. apply (sim_env _ _ e) in W. exact W.
  - destruct (ms_ok ms); auto using sim_env.
Qed.
Lemma check_not_sim ps r s s' : sim s s' -> rsim (check_not ps r s) (check_not ps r s').
Proof.
  intros H. destruct (sim_same _ _ H) as (B & E & _). unfold check_not. rewrite B, E. destruct (nm ps (buf s') r (s_env s')) as [[m e]| |]; cbn [bind]; auto.
  destruct (m_info m); destruct (m_is_ok m); cbn [negb assert bind]; auto using sim_env.
Qed.
Lemma tree_not_sim ps r t s s' : sim s s' -> rsim (tree_not ps r t s) (tree_not ps r t s').
Proof.
  intros H. unfold tree_not. destruct (check_not_sim ps r s s' H) as [| |[i|u] z z' Z]; auto.
Qed.

Definition plain_rule (r : rule L) : Prop := match r with RPlain _ => True | _ => False end.
Definition plain_item (i : item L) : Prop := match i with IRule r | ICount r _ => plain_rule r | _ => True end.
Lemma apply_rule_sim r s s' : plain_rule r -> sim s s' -> rsim (apply_rule r s) (apply_rule r s').
Proof. destruct r; cbn; try easy. intros _. apply apply_plain_sim. Qed.

Lemma check_ordered_sim rs : Forall plain_rule rs -> forall mt t s s', sim s s' -> rsim (check_ordered rs mt t s) (check_ordered rs mt t s').
Proof.
  induction 1 as [|r rs P F IH]; intros mt t s s' H; cbn [check_ordered].
  - match goal with |- rsim (bind ?x _) _ => destruct x end; cbn [bind]; auto.
  - destruct (apply_rule_sim r s s' P H) as [| |ms z z' Z]; auto. destruct (ms_ok ms); auto.
Qed.
Lemma check_repeated_sim r : plain_rule r -> forall n mt t s s', sim s s' -> rsim (check_repeated r n mt t s) (check_repeated r n mt t s').
Proof.
  intros P. induction n as [|n IH]; intros mt t s s' H; cbn [check_repeated]; auto.
  destruct (apply_rule_sim r s s' P H) as [| |ms z z' Z]; auto. cbv zeta. destruct (existsb _ ms); auto.
Qed.
Lemma expect_sim x x' : rsim x x' -> rsim (expect_tree x) (expect_tree x').
Proof. intros [| |[g t] s s' H]; cbn; auto. destruct g; auto. Qed.

Lemma check_group_sim : forall g, Forall plain_item (flat g) -> forall t s s', sim s s' -> rsim (check_group g t s) (check_group g t s')
with check_tree_sim : forall tr, Forall plain_item (flat_tree tr) -> forall t s s', sim s s' -> rsim (check_tree tr t s) (check_tree tr t s').
Proof.
  - intros [ps|ds|ds rt|rs|r n|tr]; cbn [flat]; intros F t s s' H; cbn [check_group].
    + rewrite (sim_block _ _ H). destruct (search_block (s_cur s')) as [r| |]; cbn [bind]; auto.
      destruct (check_not_sim ps r s s' H) as [| |[i|u] z z' Z]; auto.
    + destruct (apply_dag_sim ds s s' H) as [| |ms z z' Z]; auto. destruct (ms_range ms); cbn [bind]; auto.
    + inversion F as [|? ? _ F']; subst.
      assert (K : forall t z z', sim z z' -> rsim (check_group rt t z) (check_group rt t z')) by (intros; apply check_group_sim; auto).
      destruct (apply_dag_sim ds s s' H) as [| |lm z z' Z]; auto.
      * destruct (K t s s' H) as [| |[g t1] w w' W]; cbn [bind]; auto. destruct g as [rm|rm|e]; auto. destruct rm as [|r0 rm]; auto.
        destruct (ms_range r0) as [[rr|]| |]; cbn [bind unwrap]; auto.
      * destruct (K t z z' Z) as [| |[g t1] w w' W]; cbn [bind]; auto. destruct g as [rm|rm|e].
        -- destruct rm as [|r0 rm]; auto. destruct (ms_range r0) as [[rr|]| |]; cbn [bind unwrap]; auto. destruct (ms_range lm); cbn [bind]; auto.
        -- destruct (ms_range lm); cbn [bind]; auto.
        -- destruct (ms_range lm); cbn [bind]; auto.
    + apply check_ordered_sim; auto. rewrite Forall_map in F. exact F.
    + inversion F; subst. apply check_repeated_sim; auto.
    + apply check_tree_sim; auto.
  - intros [g|root l r|root l|root r]; cbn [flat_tree]; intros F t s s' H; cbn [check_tree].
    + apply check_group_sim; auto.
    + apply Forall_app in F as [F1 F2]. inversion F2 as [|? ? _ F2']; subst.
      assert (KL : forall t z z', sim z z' -> rsim (expect_tree (check_tree l t z)) (expect_tree (check_tree l t z'))) by (intros; apply expect_sim, check_tree_sim; auto).
      assert (KR : forall t z z', sim z z' -> rsim (expect_tree (check_tree r t z)) (expect_tree (check_tree r t z'))) by (intros; apply expect_sim, check_tree_sim; auto).
      assert (KN : forall t2 z z' lo hi lm rm, sim z z' -> rsim
        (do ex <- search_range (s_cur z) lo hi; do (extra, t3, s3) <- tree_not root ex t2 z; Val (GOk (lm ++ extra ++ rm), t3, s3))
        (do ex <- search_range (s_cur z') lo hi; do (extra, t3, s3) <- tree_not root ex t2 z'; Val (GOk (lm ++ extra ++ rm), t3, s3))).
      { intros t2 z z' lo hi lm rm Z. rewrite (sim_range _ _ lo hi Z). destruct (search_range (s_cur z') lo hi) as [ex| |]; cbn [bind]; auto.
        destruct (tree_not_sim root ex t2 z z' Z) as [| |[extra t3] w w' W]; cbn [bind]; auto. }
      destruct (KL t s s' H) as [| |[gl t1] z z' Z]; cbn [bind]; auto. destruct gl as [lm|lm|e]; auto.
      * destruct (assert (nonempty lm)); cbn [bind]; auto. destruct (max_end lm); cbn [bind]; auto.
        destruct (KR t1 z z' Z) as [| |[gr t2] w w' W]; cbn [bind]; auto. destruct gr as [rm|rm|e]; auto.
        destruct (assert (nonempty rm)); cbn [bind]; auto. destruct (min_start rm); cbn [bind]; auto.
      * destruct (sim_same _ _ Z) as (_ & _ & -> & _).
        destruct (KR t1 z z' Z) as [| |[gr t2] w w' W]; cbn [bind]; auto. destruct gr as [rm|rm|e]; auto.
        destruct (assert (nonempty rm)); cbn [bind]; auto. destruct (min_start rm); cbn [bind]; auto.
    + apply Forall_app in F as [F1 F2].
      assert (KL : forall t z z', sim z z' -> rsim (expect_tree (check_tree l t z)) (expect_tree (check_tree l t z'))) by (intros; apply expect_sim, check_tree_sim; auto).
      destruct (sim_same _ _ H) as (_ & _ & -> & _).
      destruct (KL t s s' H) as [| |[gl t1] z z' Z]; cbn [bind]; auto. destruct gl as [lm|lm|e]; auto.
      * destruct (assert (nonempty lm)); cbn [bind]; auto. rewrite (sim_block _ _ Z). destruct (search_block (s_cur z')) as [ex| |]; cbn [bind]; auto.
        destruct (tree_not_sim root ex t1 z z' Z) as [| |[extra t3] w w' W]; cbn [bind]; auto.
      * destruct (sim_same _ _ Z) as (_ & _ & _ & ->). rewrite (sim_range _ _ (c_start (s_cur s')) (c_end (s_cur z')) Z). destruct (search_range _ _ _) as [ex| |]; cbn [bind]; auto.
        destruct (tree_not_sim root ex t1 z z' Z) as [| |[extra t3] w w' W]; cbn [bind]; auto.
    + inversion F as [|? ? _ F2]; subst.
      assert (KL : forall t z z', sim z z' -> rsim (expect_tree (check_tree r t z)) (expect_tree (check_tree r t z'))) by (intros; apply expect_sim, check_tree_sim; auto).
      destruct (sim_same _ _ H) as (_ & _ & -> & _).
      destruct (KL t s s' H) as [| |[gl t1] z z' Z]; cbn [bind]; auto. destruct gl as [lm|lm|e]; auto.
      destruct (assert (nonempty lm)); cbn [bind]; auto. destruct (min_start lm) as [rs| |]; cbn [bind]; auto. rewrite (sim_range _ _ (c_start (s_cur s')) rs Z). destruct (search_range _ _ _) as [ex| |]; cbn [bind]; auto.
      destruct (tree_not_sim root ex t1 z z' Z) as [| |[extra t3] w w' W]; cbn [bind]; auto.
Qed.
Lemma check_groups_sim gs : Forall plain_item (flats gs) -> forall t s s', sim s s' -> rsim (check_groups gs t s) (check_groups gs t s').
Proof.
  induction gs as [|g gs IH]; intros F t s s' H; cbn [check_groups]; auto. change (flats (g :: gs)) with (flat g ++ flats gs) in F. apply Forall_app in F as [F1 F2].
  destruct (check_group_sim g F1 t s s' H) as [| |[x t1] z z' Z]; cbn [bind]; auto.
Qed.
Lemma line_free_items (ls : list (line L)) : line_free ls -> Forall plain_item (items_of ls).
Proof.
  induction ls as [|l ls IH]; intros H; [constructor|]. change (items_of (l :: ls)) with (cons_line l (items_of ls)). assert (F : Forall plain_item (items_of ls)) by (apply IH; intros x X; apply H; now right).
  pose proof (H l (or_introl eq_refl)) as R. unfold relative in R. unfold cons_line. destruct (l_kind l); try (exfalso; tauto); auto.
  - constructor; cbn; auto.
  - constructor; cbn; auto.
  - destruct (items_of ls) as [|[] r]; inversion F; subst; repeat (constructor; cbn; auto).
  - destruct (items_of ls) as [|[] r]; inversion F; subst; repeat (constructor; cbn; auto).
Qed.
Lemma line_free_implicit imp (ls : list (line L)) : line_free ls -> line_free (with_implicit imp ls).
Proof.
  intros H l I. unfold with_implicit in I. apply in_app_or in I as [I|I].
  - destruct imp; [destruct I as [<-|[]]|destruct I]. intros [X|[X|X]]; discriminate.
  - apply in_flat_map in I as (x & X & [<-|I]); [now apply H|]. destruct (l_kind x); destruct imp; cbn in I; try contradiction; destruct I as [<-|[]]; intros [Y|[Y|Y]]; discriminate.
Qed.
Lemma line_free_anchored (ls : list (line L)) : line_free ls -> anchored ls.
Proof. intros H pre l post -> R. exfalso. apply (H l); auto. apply in_or_app. right. now left. Qed.

Context (LO : lang_ok L).
(** A file without labels and line-relative directives runs its groups on the whole input; the
    cursor may as well be one for LF line ends. *)
Lemma free_run allow imp (ls : list (line L)) b e : line_free ls -> file_ok (mkFile ls []) ->
  b <> [] \/ allow = true -> ls <> [] \/ imp <> None ->
  exists pre s sf, part_ok (with_implicit imp ls) pre /\ Forall plain_item (flats pre) /\
    filecheck allow imp ls b e = (do (t, _) <- check_groups pre test_new s; Val t) /\
    sim s sf /\ st_ok (L:=L) b (length b) sf /\ pos_of sf = 0 /\ s_env sf = enter e.
Proof.
  intros FR OK NE1 NE2. assert (FL : file_lines (mkFile ls []) = ls) by (unfold file_lines; cbn; apply app_nil_r).
  pose proof (compile_file imp (mkFile ls []) OK) as CF. rewrite FL in CF. specialize (CF NE2). cbn [f_prefix f_blocks] in CF.
  assert (AN : anchoredb false ls = true) by (apply anchored_b; [apply OK|now apply line_free_anchored]). rewrite AN in CF.
  destruct CF as (pre & gss & (GP1 & GP2) & _ & PE & CP). cbn [combine map app] in CP. rewrite app_nil_r in CP.
  assert (W : with_implicit imp ls <> []).
  { unfold with_implicit. destruct imp; [discriminate|]. cbn. destruct ls; [|discriminate]. destruct NE2; congruence. }
  assert (PNE : pre <> []) by (intros Q; apply PE in Q; congruence).
  destruct (newline_next_ok b 0) as [n N]; [lia|].
  set (c0 := mkCursor b (mkRange 0 (length b)) (nl_offset n) (is_crlf_nl n)).
  assert (CN : cursor_new b = Val c0) by (unfold cursor_new; rewrite N; reflexivity).
  assert (AE : (negb allow && match b with [] => true | _ => false end)%bool = false).
  { destruct NE1 as [H| ->]; [destruct b; [congruence|apply andb_false_r]|reflexivity]. }
  assert (RS : reset c0 = Val c0) by (unfold reset; cbn [c_buf c0]; rewrite N; reflexivity).
  (* the cursor at the start of the block *)
  assert (SB : exists c1, set_bounds c0 (Included 0) (Excluded (length b)) = Val c1 /\ c_buf c1 = b /\ c_block c1 = mkRange 0 (length b)).
  { unfold set_bounds. cbn [c_buf c0]. rewrite (bounds_of_ok b _ _ 0 (length b) (begins_incl _ _) (stops_excl _ _)) by lia. cbn [bind rstart].
    unfold next_newline_from, next_newline_in_range. cbn [c_buf]. rewrite (bounds_of_ok b _ Unbounded 0 (length b) (begins_incl _ _)) by (try reflexivity; lia). cbn [bind].
    destruct (slice_ok b (mkRange 0 (length b))) as [t T]; cbn; try lia. unfold find_next_crlf, find_next_lf. rewrite T. cbn.
    destruct (is_crlf_nl n); cbn; eexists; split; try reflexivity; auto. }
  destruct SB as (c1 & SB & B1 & K1).
  assert (RUN : filecheck allow imp ls b e = (do (t, _) <- check_groups pre test_new (mkState c1 (enter e)); Val t)).
  { unfold filecheck. rewrite CP. cbn [bind]. unfold check_input. rewrite CN. cbn [bind]. rewrite AE.
    pose proof (discover_blocks_first pre [] [] (mkState (L:=L) c0 e) PNE) as DB. change (secs_of [] []) with (@nil (section L)) in DB. rewrite app_nil_r in DB. rewrite DB.
    pose proof (discover_groups pre [] 0 (mkState (L:=L) c0 e) [mkBlock None (0, length pre) (Some 0) None] []) as DG. rewrite app_nil_r in DG. rewrite DG. cbn [discover bind s_cur s_env].
    rewrite RS. cbn [bind rev app]. cbn [check_blocks].
    assert (CB : check_block (map SGroup pre) (mkBlock None (0, length pre) (Some 0) None) test_new (mkState c0 e) = check_groups pre test_new (mkState c1 (enter e))).
    { unfold check_block. cbn [b_start b_end b_secs b_label unwrap_or]. unfold buf. cbn [s_cur c_buf c0]. unfold range_new. cbn [Nat.leb unwrap bind rstart rend]. fold c0. rewrite SB. cbn [bind s_env].
      rewrite Nat.sub_0_r. cbn [skipn]. rewrite <- (map_length SGroup pre), firstn_all, map_length, groups_of_map.
      destruct pre as [|g [|g2 pre]]; [congruence|reflexivity|]. cbn [length Nat.leb Nat.ltb bind]. reflexivity. }
    rewrite CB. destruct (check_groups pre test_new (mkState c1 (enter e))) as [[t s]| |]; reflexivity. }
  (* the same cursor on a file with LF line ends *)
  destruct (eol_of_ok b 0) as (E0 & E1 & E2); [lia|].
  set (cf := mkCursor b (mkRange 0 (length b)) (eol_of b 0) false).
  assert (ST : st_ok (L:=L) b (length b) (mkState cf (enter e))).
  { unfold st_ok. cbn [s_cur]. split; [|split; reflexivity]. split; [reflexivity|]. split; [cbn; lia|].
    exists (eol_of b 0). split; [exact (conj E0 (conj E1 E2))|]. left. reflexivity. }
  assert (SI : sim (mkState c1 (enter e)) (mkState cf (enter e))).
  { destruct c1. cbn in B1, K1. subst. unfold cf. constructor; cbn; lia. }
  assert (UW : unlabelled (with_implicit imp ls)) by (apply with_implicit_unlabelled; apply OK).
  assert (CW : counts_ok (with_implicit imp ls)).
  { apply with_implicit_counts. apply Forall_forall. intros x X. destruct OK as (_ & _ & NC). apply NC. now rewrite FL. }
  assert (PI : Forall plain_item (flats pre)) by (rewrite GP2; now apply line_free_items, line_free_implicit).
  exists pre, (mkState c1 (enter e)), (mkState cf (enter e)).
  split; [split; [split; auto|split; auto]|]. split; [exact PI|]. split; [exact RUN|]. split; [exact SI|]. split; [exact ST|]. split; reflexivity.
Qed.
(** Files without labels, CHECK-NEXT, CHECK-SAME and CHECK-EMPTY, on any input. *)
Theorem filecheck_free allow imp (ls : list (line L)) b e : line_free ls -> file_ok (mkFile ls []) ->
  b <> [] \/ allow = true -> ls <> [] \/ imp <> None ->
  (forall out en', accepts b (length b) (with_implicit imp ls) [] false 0 (enter e) out en' ->
     exists t, filecheck allow imp ls b e = Val t /\ t_errors t = [] /\ t_matches t = out) /\
  (forall t, filecheck allow imp ls b e = Val t -> t_errors t = [] ->
     exists en', accepts b (length b) (with_implicit imp ls) [] false 0 (enter e) (t_matches t) en').
Proof.
  intros FR OK NE1 NE2. destruct (free_run allow imp ls b e FR OK NE1 NE2) as (pre & s0 & sf & ((GP1 & GP2) & UW & CW) & PI & RUN & SI & ST & P0 & E0).
  destruct (block_accepts LO b (length b) (or_introl eq_refl) pre (with_implicit imp ls) test_new sf ST UW CW GP1 GP2) as [FW BW].
  rewrite P0, E0 in FW, BW. pose proof (check_groups_sim pre PI test_new _ _ SI) as RS'. split.
  - intros out en' A. destruct (FW out en' A) as (t' & s' & X1 & X2 & X3 & _). rewrite X1 in RS'. inversion RS' as [| |? s1 ? Z Q]; subst. rewrite RUN, <- Q. cbn [bind]. exists t'. auto.
  - intros t H NN. rewrite RUN in H. destruct (check_groups pre test_new s0) as [[t1 s1]| |] eqn:Q; cbn [bind] in H; try discriminate. injection H as ->.
    inversion RS' as [| |? ? s2 Z Q1 Q2]; subst. destruct (BW t s2 (eq_sym Q2) NN) as (out & en' & A & M & _). exists en'. cbn in M. rewrite M. exact A.
Qed.
End Free.
