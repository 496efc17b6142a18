(** Two pattern languages whose patterns match alike on one text give the same results on that text, for programs of the same
    shape: [Sim_Proofs] for one text. *)
From Verif Require Import Base Text_Model Cursor_Model Cursor_Proofs Check_Model Program_Model.
From Verif Require Sim_Proofs.
Notation like := Sim_Proofs.like.
Open Scope list_scope.
Lemma reset_buf c c' : reset c = Val c' -> c_buf c' = c_buf c.
Proof. unfold reset. destruct (unwrap _); cbn [bind]; try discriminate. intros H. now injection H as <-. Qed.
Lemma set_start_buf c n c' : set_start c n = Val c' -> c_buf c' = c_buf c.
Proof.
  unfold set_start. cbn zeta. destruct (n ?= c_start c); [|destruct (eol_in_block _); cbn [bind]; try discriminate|destruct (_ <? _); [destruct (eol_in_block _); cbn [bind]; try discriminate|]];
    intros H; now injection H as <-.
Qed.
Lemma set_bounds_buf c s e c' : set_bounds c s e = Val c' -> c_buf c' = c_buf c.
Proof. unfold set_bounds. destruct (bounds_of _ _ _); cbn [bind]; try discriminate. destruct (next_newline_from _ _); cbn [bind]; try discriminate. intros H. now injection H as <-. Qed.
Lemma cursor_new_buf b c : cursor_new b = Val c -> c_buf c = b.
Proof. unfold cursor_new. destruct (unwrap _); cbn [bind]; try discriminate. intros H. now injection H as <-. Qed.
Section Sim.
Context (b0 : bytes) {L L' : lang} (RE : env L -> env L' -> Prop) (Enter : forall e e', RE e e' -> RE (enter e) (enter e')).
Definition r1 {A} (x : A * env L) (y : A * env L') : Prop := fst x = fst y /\ RE (snd x) (snd y).
Definition inside (b : bytes) (r : range) : Prop := b = b0 /\ rstart r <= rend r <= length b.
Definition pat_like (p : pat L) (p' : pat L') : Prop := forall b r e e', inside b r -> RE e e' -> like r1 (pm p b r e) (pm p' b r e').
Definition nots_like (ps : list (pat L)) (ps' : list (pat L')) : Prop :=
  length ps = length ps' /\ forall b r e e', inside b r -> RE e e' -> like r1 (nm ps b r e) (nm ps' b r e').
Definition dags_like (ps : list (pat L)) (ps' : list (pat L')) : Prop :=
  forall b r e e', inside b r -> RE e e' -> like (fun x y => fst (fst x) = fst (fst y) /\ snd x = snd y /\ RE (snd (fst x)) (snd (fst y))) (dm ps b r e) (dm ps' b r e').
Lemma bounds_inside b s e r : b = b0 -> bounds_of b s e = Val r -> inside b r.
Proof. intros Q H. apply bounds_of_val in H as (_ & _ & H). split; [exact Q|exact H]. Qed.

(** how the patterns of CHECK, CHECK-NEXT, CHECK-SAME and CHECK-COUNT, those of CHECK-LABEL, and the sets of
    CHECK-NOT and of CHECK-DAG are related *)
Context (PL LB : pat L -> pat L' -> Prop) (NL DL : list (pat L) -> list (pat L') -> Prop).
Notation rule_like := (Sim_Proofs.rule_like PL).
Notation group_like := (Sim_Proofs.group_like PL NL DL).
Notation tree_like := (Sim_Proofs.tree_like PL NL DL).
Notation section_like := (Sim_Proofs.section_like PL LB NL DL).
Inductive st_like : state L -> state L' -> Prop := stl c e e' : c_buf c = b0 -> RE e e' -> st_like (mkState c e) (mkState c e').
Definition r2 {A} (x : A * state L) (y : A * state L') : Prop := fst x = fst y /\ st_like (snd x) (snd y).
Lemma r2_val {A} (a : A) s s' : st_like s s' -> like r2 (Val (a, s)) (Val (a, s')).
Proof. intros H. constructor. split; auto. Qed.

Section Exact.
Context (Exact : forall p p', PL p p' -> pat_like p p') (ExactL : forall p p', LB p p' -> pat_like p p')
  (ExactN : forall ps ps', NL ps ps' -> nots_like ps ps') (ExactD : forall ps ps', DL ps ps' -> dags_like ps ps').
Lemma match_mut_like p p' r s s' : pat_like p p' -> inside (buf s) r -> st_like s s' -> like r2 (match_mut p r s) (match_mut p' r s').
Proof.
  intros P In S. revert In. destruct S as [c e e' BF R]. intros In. unfold match_mut, buf in *. cbn [s_cur s_env] in *. eapply Sim_Proofs.like_bind; [apply P; assumption|]. intros [m e1] [m' e1'] [E R1]. cbn in E, R1. subst m'.
  apply r2_val. destruct (m_is_ok m); now constructor.
Qed.
Lemma move_like s s' n : st_like s s' -> like st_like (move_start s n) (move_start s' n).
Proof. intros [c e e' BF R]. unfold move_start. cbn [s_cur s_env]. apply Sim_Proofs.like_eq. intros c' Ec. apply set_start_buf in Ec. constructor. constructor; [congruence|exact R]. Qed.
Lemma advance_like m s s' : st_like s s' -> like st_like (advance m s) (advance m s').
Proof. intros H. unfold advance. destruct (m_info m); [|now constructor]. destruct (m_is_ok m); [now apply move_like|now constructor]. Qed.
Lemma cur_like s s' : st_like s s' -> s_cur s' = s_cur s.
Proof. now intros []. Qed.
Lemma buf_is s s' : st_like s s' -> c_buf (s_cur s) = b0.
Proof. now intros []. Qed.
Lemma buf_like s s' : st_like s s' -> buf s' = buf s.
Proof. now intros []. Qed.
Ltac cur := match goal with H : st_like ?s ?s' |- _ => rewrite (cur_like s s' H) in * end.
Ltac ins := unfold buf; eapply bounds_inside; [eapply buf_is; eassumption|]; match goal with H : _ = Val ?r |- bounds_of _ _ _ = Val ?r => exact H end.
Ltac step := eapply Sim_Proofs.like_bind; [apply match_mut_like; [assumption|ins|assumption]|].

Lemma rule_sim r r' s s' : rule_like r r' -> st_like s s' -> like r2 (apply_rule r s) (apply_rule r' s').
Proof.
  intros RL S. destruct RL as [p p' P|p p' P|p p' P|]; cbn [apply_rule]; try apply Exact in P.
  - unfold apply_plain. rewrite (cur_like _ _ S). apply Sim_Proofs.like_eq. intros x Ex. step. intros [m s1] [m' s1'] [E S1]. cbn in E, S1. subst m'.
    eapply Sim_Proofs.like_bind; [now apply advance_like|]. intros s2 s2' S2. now apply r2_val.
  - unfold apply_next. rewrite (cur_like _ _ S). apply Sim_Proofs.like_eq. intros x _. apply Sim_Proofs.like_eq. intros o _. destruct (_ <=? _).
    + apply Sim_Proofs.like_eq. intros _ _. now apply r2_val.
    + apply Sim_Proofs.like_eq. intros rg Eg. step. intros [m s1] [m' s1'] [E S1]. cbn in E, S1. subst m'.
      eapply Sim_Proofs.like_bind; [now apply advance_like|]. intros s2 s2' S2. now apply r2_val.
  - unfold apply_same. rewrite (cur_like _ _ S). apply Sim_Proofs.like_eq. intros x Ex. step. intros [m s1] [m' s1'] [E S1]. cbn in E, S1. subst m'.
    destruct (m_info m) as [i|].
    + destruct (m_is_ok m); [|now apply r2_val]. rewrite (cur_like _ _ S1). apply Sim_Proofs.like_eq. intros _ _. eapply Sim_Proofs.like_bind; [now apply move_like|]. intros s2 s2' S2. now apply r2_val.
    + rewrite (cur_like _ _ S1). apply Sim_Proofs.like_eq. intros rg Eg. step. intros [m2 s2] [m2' s2'] [E2 S2]. cbn in E2, S2. subst m2'. destruct (m_info m2); now apply r2_val.
  - unfold apply_empty. rewrite (cur_like _ _ S). apply Sim_Proofs.like_eq. intros x _. apply Sim_Proofs.like_eq. intros o _. apply Sim_Proofs.like_eq. intros a _. destruct (_ && _)%bool.
    + eapply Sim_Proofs.like_bind; [now apply move_like|]. intros s2 s2' S2. now apply r2_val.
    + apply Sim_Proofs.like_eq. intros _ _. now apply r2_val.
Qed.
Lemma dag_sim ds ds' s s' : DL ds ds' -> st_like s s' -> like r2 (apply_dag ds s) (apply_dag ds' s').
Proof.
  intros D S. apply ExactD in D. destruct S as [c e e' BF R]. unfold apply_dag, buf. cbn [s_cur s_env]. apply Sim_Proofs.like_eq. intros rg Er. eapply Sim_Proofs.like_bind; [apply D; [eapply bounds_inside; [exact BF|exact Er]|exact R]|].
  intros [[ms e1] pos] [[ms' e1'] pos'] (E1 & E2 & R1). cbn in E1, E2, R1. subst ms' pos'.
  assert (G : forall x, (forall c0, x = Val c0 -> c_buf c0 = b0) -> like r2 (do c0 <- x; Val (ms, if ms_ok ms then mkState c0 e1 else mkState c e)) (do c0 <- x; Val (ms, if ms_ok ms then mkState c0 e1' else mkState c e'))).
  { intros x Q. apply Sim_Proofs.like_eq. intros c0 E0. apply Q in E0. apply r2_val. destruct (ms_ok ms); now constructor. }
  apply G. intros c0 E0. destruct pos as [n|]; [apply set_start_buf in E0; congruence|injection E0 as <-; exact BF].
Qed.
Lemma not_sim ps ps' r s s' : NL ps ps' -> inside (buf s) r -> st_like s s' -> like r2 (check_not ps r s) (check_not ps' r s').
Proof.
  intros N0 In S. revert In. destruct S as [c e e' BF R]. intros In. apply ExactN in N0 as [_ N]. unfold check_not, buf in *. cbn [s_cur s_env] in *. eapply Sim_Proofs.like_bind; [apply N; assumption|]. intros [m e1] [m' e1'] [E R1]. cbn in E, R1. subst m'.
  destruct (m_info m); [destruct (m_is_ok m)|]; try apply Sim_Proofs.like_eq; intros; apply r2_val; now constructor.
Qed.
Definition r3 {A B} (x : A * B * state L) (y : A * B * state L') : Prop := fst x = fst y /\ st_like (snd x) (snd y).
Lemma r3_val {A B} (a : A) (b : B) s s' : st_like s s' -> like r3 (Val (a, b, s)) (Val (a, b, s')).
Proof. intros H. constructor. split; auto. Qed.
Lemma tree_not_sim ps ps' r t s s' : NL ps ps' -> inside (buf s) r -> st_like s s' -> like r3 (tree_not ps r t s) (tree_not ps' r t s').
Proof.
  intros N In S. unfold tree_not. rewrite <- (proj1 (ExactN _ _ N)). destruct (not_sim ps ps' r s s' N In S) as [[[i|u] s1] [x s1'] [E S1]| |]; try (cbn in E, S1; subst x).
  - now apply r3_val.
  - now apply r3_val.
  - now apply r3_val.
  - constructor.
Qed.
Lemma ordered_sim rs rs' : Forall2 rule_like rs rs' -> forall ms t s s', st_like s s' -> like r3 (check_ordered rs ms t s) (check_ordered rs' ms t s').
Proof.
  induction 1 as [|r r' rs rs' R F IH]; intros ms t s s' S; cbn [check_ordered].
  - apply Sim_Proofs.like_eq. intros some _. now apply r3_val.
  - assert (En : (match rs with [] => true | _ => false end) = (match rs' with [] => true | _ => false end)) by (now destruct F).
    destruct (rule_sim r r' s s' R S) as [[m s1] [m' s1'] [E S1]| |]; try (cbn in E, S1; subst m').
    + destruct (ms_ok m); [auto|].
      replace (match flat_map (fun m => match m_ty m with Failed e => [e] | _ => [] end) m, rs' with [e], [] => e | _, _ => EGroup end)
        with (match flat_map (fun m => match m_ty m with Failed e => [e] | _ => [] end) m, rs with [e], [] => e | _, _ => EGroup end).
      * now apply r3_val.
      * destruct (flat_map _ m) as [|e0 [|e1 l]]; auto. now destruct rs, rs'.
    + auto.
    + constructor.
Qed.
Lemma repeated_sim r r' n : rule_like r r' -> forall ms t s s', st_like s s' -> like r3 (check_repeated r n ms t s) (check_repeated r' n ms t s').
Proof.
  intros R. induction n as [|n IH]; intros ms t s s' S; cbn [check_repeated]; [now apply r3_val|].
  destruct (rule_sim r r' s s' R S) as [[m s1] [m' s1'] [E S1]| |]; try (cbn in E, S1; subst m').
  - cbn zeta. destruct (existsb _ m); [now apply r3_val|auto].
  - now apply r3_val.
  - constructor.
Qed.
Lemma expect_sim x y : like r3 x y -> like r3 (expect_tree x) (expect_tree y).
Proof. intros H. unfold expect_tree. eapply Sim_Proofs.like_bind; [exact H|]. intros [[g t] s] [[g' t'] s'] [E S]. cbn in E, S. injection E as <- <-. destruct g; try now apply r3_val. constructor. Qed.

Lemma group_tree_sim : (forall g g', group_like g g' -> forall t s s', st_like s s' -> like r3 (check_group g t s) (check_group g' t s')) /\
  (forall g g', tree_like g g' -> forall t s s', st_like s s' -> like r3 (check_tree g t s) (check_tree g' t s')).
Proof.
  assert (G : (forall (g : group L) g', group_like g g' -> forall t s s', st_like s s' -> like r3 (check_group g t s) (check_group g' t s')) /\
    (forall (g : tree L) g', tree_like g g' -> forall t s s', st_like s s' -> like r3 (check_tree g t s) (check_tree g' t s'))); [|exact G].
  apply Sim_Proofs.group_tree_ind.
  - intros ps g' H t s s' S. inversion H as [? ps' N| | | | |]; subst. cbn [check_group]. rewrite (cur_like _ _ S). apply Sim_Proofs.like_eq. intros r Er. rewrite <- (proj1 (ExactN _ _ N)).
    destruct (not_sim ps ps' r s s' N ltac:(ins) S) as [[[i|u] s1] [x s1'] [E S1]| |]; try (cbn in E, S1; subst x); try (now apply r3_val). constructor.
  - intros ds g' H t s s' S. inversion H as [|? ds' D| | | |]; subst. cbn [check_group].
    destruct (dag_sim ds ds' s s' D S) as [[m s1] [m' s1'] [E S1]| |]; try (cbn in E, S1; subst m'); [|now apply r3_val|constructor].
    apply Sim_Proofs.like_eq. intros o _. now apply r3_val.
  - intros ds g IH g' H t s s' S. inversion H as [| |? ds' ? g2 D Gl| | |]; subst. cbn [check_group].
    destruct (dag_sim ds ds' s s' D S) as [[m s1] [m' s1'] [E S1]| |]; try (cbn in E, S1; subst m'); [| |constructor].
    + eapply Sim_Proofs.like_bind; [apply IH; eassumption|]. intros [[x t1] s2] [[x' t1'] s2'] [E2 S2]. cbn in E2, S2. injection E2 as <- <-.
      destruct x as [rm|rm|er].
      * destruct rm as [|r0 rm]; [constructor|]. apply Sim_Proofs.like_eq. intros o _. apply Sim_Proofs.like_eq. intros rr _. apply Sim_Proofs.like_eq. intros lo _. now apply r3_val.
      * apply Sim_Proofs.like_eq. intros lo _. now apply r3_val.
      * apply Sim_Proofs.like_eq. intros lo _. now apply r3_val.
    + eapply Sim_Proofs.like_bind; [apply IH; eassumption|]. intros [[x t1] s2] [[x' t1'] s2'] [E2 S2]. cbn in E2, S2. injection E2 as <- <-.
      destruct x as [rm|rm|er]; [|now apply r3_val|now apply r3_val].
      destruct rm as [|r0 rm]; [constructor|]. apply Sim_Proofs.like_eq. intros o _. apply Sim_Proofs.like_eq. intros rr _. now apply r3_val.
  - intros rs g' H t s s' S. inversion H; subst. cbn [check_group]. now apply ordered_sim.
  - intros r n g' H t s s' S. inversion H; subst. cbn [check_group]. now apply repeated_sim.
  - intros tr IH g' H t s s' S. inversion H; subst. cbn [check_group]. auto.
  - intros g IH g' H t s s' S. inversion H; subst. cbn [check_tree]. auto.
  - intros root lt IHl rt IHr g' H t s s' S. inversion H as [|? root' ? lt' ? rt' N Hl Hr| |]; subst. cbn [check_tree].
    eapply Sim_Proofs.like_bind; [apply expect_sim, IHl; eassumption|]. intros [[x t1] s1] [[x' t1'] s1'] [E1 S1]. cbn in E1, S1. injection E1 as <- <-.
    destruct x as [lm|lm|er]; [| |constructor].
    + apply Sim_Proofs.like_eq. intros _ _. apply Sim_Proofs.like_eq. intros le _. eapply Sim_Proofs.like_bind; [apply expect_sim, IHr; eassumption|].
      intros [[x t2] s2] [[x' t2'] s2'] [E2 S2]. cbn in E2, S2. injection E2 as <- <-. destruct x as [rm|rm|er]; [| |constructor].
      * apply Sim_Proofs.like_eq. intros _ _. apply Sim_Proofs.like_eq. intros rs _. rewrite (cur_like _ _ S2). apply Sim_Proofs.like_eq. intros ex Eex. eapply Sim_Proofs.like_bind; [apply tree_not_sim; [assumption|ins|assumption]|].
        intros [[x t3] s3] [[x' t3'] s3'] [E3 S3]. cbn in E3, S3. injection E3 as <- <-. now apply r3_val.
      * rewrite <- (proj1 (ExactN _ _ N)). now apply r3_val.
    + rewrite (cur_like _ _ S1). cbn zeta. eapply Sim_Proofs.like_bind; [apply expect_sim, IHr; eassumption|].
      intros [[x t2] s2] [[x' t2'] s2'] [E2 S2]. cbn in E2, S2. injection E2 as <- <-. destruct x as [rm|rm|er]; [| |constructor].
      * apply Sim_Proofs.like_eq. intros _ _. apply Sim_Proofs.like_eq. intros rs _. rewrite (cur_like _ _ S2). apply Sim_Proofs.like_eq. intros ex Eex. eapply Sim_Proofs.like_bind; [apply tree_not_sim; [assumption|ins|assumption]|].
        intros [[x t3] s3] [[x' t3'] s3'] [E3 S3]. cbn in E3, S3. injection E3 as <- <-. now apply r3_val.
      * rewrite <- (proj1 (ExactN _ _ N)). now apply r3_val.
  - intros root lt IHl g' H t s s' S. inversion H as [| |? root' ? lt' N Hl|]; subst. cbn [check_tree]. rewrite (cur_like _ _ S). cbn zeta.
    eapply Sim_Proofs.like_bind; [apply expect_sim, IHl; eassumption|]. intros [[x t1] s1] [[x' t1'] s1'] [E1 S1]. cbn in E1, S1. injection E1 as <- <-.
    destruct x as [lm|lm|er]; [| |constructor]; rewrite (cur_like _ _ S1); try apply Sim_Proofs.like_eq; intros; try apply Sim_Proofs.like_eq; intros;
      (eapply Sim_Proofs.like_bind; [apply tree_not_sim; [assumption|ins|assumption]|]; intros [[x t2] s2] [[x' t2'] s2'] [E2 S2]; cbn in E2, S2; injection E2 as <- <-; now apply r3_val).
  - intros root rt IHr g' H t s s' S. inversion H as [| | |? root' ? rt' N Hr]; subst. cbn [check_tree]. rewrite (cur_like _ _ S). cbn zeta.
    eapply Sim_Proofs.like_bind; [apply expect_sim, IHr; eassumption|]. intros [[x t1] s1] [[x' t1'] s1'] [E1 S1]. cbn in E1, S1. injection E1 as <- <-.
    destruct x as [rm|rm|er]; [| |constructor].
    + apply Sim_Proofs.like_eq. intros _ _. apply Sim_Proofs.like_eq. intros rs _. rewrite (cur_like _ _ S1). apply Sim_Proofs.like_eq. intros ex Eex. eapply Sim_Proofs.like_bind; [apply tree_not_sim; [assumption|ins|assumption]|].
      intros [[x t3] s3] [[x' t3'] s3'] [E3 S3]. cbn in E3, S3. injection E3 as <- <-. now apply r3_val.
    + rewrite <- (proj1 (ExactN _ _ N)). now apply r3_val.
Qed.
Lemma groups_sim gs gs' : Forall2 group_like gs gs' -> forall t s s', st_like s s' -> like r2 (check_groups gs t s) (check_groups gs' t s').
Proof.
  induction 1 as [|g g' gs gs' G F IH]; intros t s s' S; cbn [check_groups]; [now apply r2_val|].
  eapply Sim_Proofs.like_bind; [apply group_tree_sim; eassumption|]. intros [[x t1] s1] [[x' t1'] s1'] [E1 S1]. cbn in E1, S1. injection E1 as <- <-. now apply IH.
Qed.
Lemma discover_sim secs secs' : Forall2 section_like secs secs' -> forall i s s' rb er, st_like s s' ->
  like r3 (discover i secs s rb er) (discover i secs' s' rb er).
Proof.
  induction 1 as [|x x' secs secs' X F IH]; intros i s s' rb er S; cbn [discover]; [now apply r3_val|].
  destruct X as [p p' gs gs' P _|g g' _]; [|auto]. rewrite (cur_like _ _ S). apply Sim_Proofs.like_eq. intros rg Erg. cbn zeta. rewrite (buf_like _ _ S).
  destruct S as [c e e' BF R]. unfold buf. cbn [s_cur s_env]. destruct (ExactL _ _ P c.(c_buf) rg e e' ltac:(eapply bounds_inside; [exact BF|exact Erg]) R) as [[m e1] [m' e1'] [E R1]| |]; try (cbn in E, R1; subst m').
  - destruct (m_info m) as [info|].
    + apply Sim_Proofs.like_eq. intros o _. apply Sim_Proofs.like_eq. intros pr _. apply Sim_Proofs.like_eq. intros c' Ec. apply set_start_buf in Ec. apply IH. constructor; [cbn in Ec; congruence|exact R].
    + apply IH. now constructor.
  - apply IH. now constructor.
  - constructor.
Qed.
Lemma sections_length secs secs' : Forall2 section_like secs secs' -> length secs = length secs'.
Proof. induction 1; cbn; auto. Qed.
Lemma count_sim secs secs' : Forall2 section_like secs secs' -> count_while (fun x => negb (is_block x)) secs = count_while (fun x => negb (is_block x)) secs'.
Proof. induction 1 as [|x x' secs secs' X F IH]; [reflexivity|]. cbn [count_while]. destruct X; cbn [is_block negb]; [reflexivity|now rewrite IH]. Qed.
Lemma discover_blocks_sim secs secs' s s' : Forall2 section_like secs secs' -> st_like s s' -> like r2 (discover_blocks secs s) (discover_blocks secs' s').
Proof.
  intros F S. unfold discover_blocks. rewrite <- (count_sim _ _ F).
  assert (E : match secs with SBlock _ _ :: _ => [] | _ => [mkBlock None (0, count_while (fun x => negb (is_block x)) secs) (Some 0) None] end =
              match secs' with SBlock _ _ :: _ => [] | _ => [mkBlock None (0, count_while (fun x => negb (is_block x)) secs) (Some 0) None] end).
  { destruct F as [|x x' secs secs' [] F]; reflexivity. }
  cbn zeta. rewrite <- E. eapply Sim_Proofs.like_bind; [now apply discover_sim|]. intros [[rb er] s1] [[rb' er'] s1'] [E1 S1]. cbn in E1, S1. injection E1 as <- <-.
  rewrite (cur_like _ _ S1). apply Sim_Proofs.like_eq. intros c Ec. apply reset_buf in Ec. destruct S1 as [c1 e e' BF R]. apply r2_val. constructor; [cbn in Ec; congruence|exact R].
Qed.
Lemma groups_of_sim secs secs' : Forall2 section_like secs secs' -> like (Forall2 group_like) (groups_of secs) (groups_of secs').
Proof.
  unfold groups_of. induction 1 as [|x x' secs secs' X F IH]; cbn [fold_right]; [constructor; constructor|].
  eapply Sim_Proofs.like_bind; [exact IH|]. intros gs gs' G. destruct X; [constructor|]. constructor. now constructor.
Qed.
Lemma Forall2_firstn {A B} (R : A -> B -> Prop) l l' : Forall2 R l l' -> forall n, Forall2 R (firstn n l) (firstn n l').
Proof. induction 1; intros [|n]; cbn; constructor; auto. Qed.
Lemma Forall2_skipn {A B} (R : A -> B -> Prop) l l' : Forall2 R l l' -> forall n, Forall2 R (skipn n l) (skipn n l').
Proof. intros H. induction H; intros [|n]; cbn; auto. Qed.
Lemma check_block_sim secs secs' bl t s s' : Forall2 section_like secs secs' -> st_like s s' -> like r2 (check_block secs bl t s) (check_block secs' bl t s').
Proof.
  intros F S. unfold check_block. cbn zeta. destruct (b_start bl) as [st|]; [|now apply r2_val]. rewrite (buf_like _ _ S), (cur_like _ _ S).
  apply Sim_Proofs.like_eq. intros rg _. apply Sim_Proofs.like_eq. intros c Ec. apply set_bounds_buf in Ec. destruct (b_secs bl) as [lo hi].
  assert (S1 : st_like (mkState c (enter (s_env s))) (mkState c (enter (s_env s')))) by (destruct S as [c0 e e' BF R]; constructor; cbn in *; [congruence|auto]).
  destruct (hi <=? lo); [now apply r2_val|]. destruct (1 <? hi - lo).
  - eapply Sim_Proofs.like_bind; [apply groups_of_sim; apply Forall2_firstn, Forall2_skipn; exact F|]. intros gs gs' G. now apply groups_sim.
  - assert (N : forall k, match nth_error secs k, nth_error secs' k with Some x, Some x' => section_like x x' | None, None => True | _, _ => False end).
    { clear -F. induction F as [|x x' secs secs' X F IH]; intros [|k]; cbn; auto; apply IH. }
    specialize (N lo). destruct (nth_error secs lo) as [x|], (nth_error secs' lo) as [x'|]; try easy; [|constructor].
    destruct N as [p p' gs gs' P G|g g' G]; apply groups_sim; auto.
Qed.
Lemma check_blocks_sim secs secs' bs : Forall2 section_like secs secs' -> forall t s s', st_like s s' -> like r2 (check_blocks secs bs t s) (check_blocks secs' bs t s').
Proof.
  intros F. induction bs as [|bl bs IH]; intros t s s' S; cbn [check_blocks]; [now apply r2_val|].
  eapply Sim_Proofs.like_bind; [now apply check_block_sim|]. intros [t1 s1] [t1' s1'] [E1 S1]. cbn in E1, S1. subst t1'. auto.
Qed.
Theorem check_input_sim allow secs secs' e e' : Forall2 section_like secs secs' -> RE e e' -> check_input allow secs b0 e = check_input allow secs' b0 e'.
Proof.
  intros F R. assert (G : like eq (check_input allow secs b0 e) (check_input allow secs' b0 e')); [|destruct G; congruence].
  unfold check_input. apply Sim_Proofs.like_eq. intros c Ec. apply cursor_new_buf in Ec. destruct (_ && _)%bool; [apply Sim_Proofs.like_refl|].
  eapply Sim_Proofs.like_bind; [apply discover_blocks_sim; [exact F|now constructor]|]. intros [bs s] [bs' s'] [E S]. cbn in E, S. subst bs'. destruct bs as [blocks|errors]; [|apply Sim_Proofs.like_refl].
  eapply Sim_Proofs.like_bind; [now apply check_blocks_sim|]. intros [t s1] [t' s1'] [E1 S1]. cbn in E1. subst t'. constructor. reflexivity.
Qed.
End Exact.

End Sim.
