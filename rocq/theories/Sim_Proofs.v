(** Two pattern languages whose patterns match alike give the same results for programs of the same shape. *)
From Verif Require Import Base Text_Model Cursor_Model Cursor_Proofs Check_Model Program_Model.
Open Scope list_scope.

(** Both are values that are related, both are errors, or both panic. *)
Inductive like {A B} (R : A -> B -> Prop) : res A -> res B -> Prop :=
| lk_val a b : R a b -> like R (Val a) (Val b)
| lk_err : like R Err Err
| lk_panic : like R Panic Panic.
Lemma like_bind {A B A' B'} (R : A -> B -> Prop) (Q : A' -> B' -> Prop) x y f g : like R x y -> (forall a b, R a b -> like Q (f a) (g b)) -> like Q (bind x f) (bind y g).
Proof. destruct 1; cbn; [auto|constructor|constructor]. Qed.
Lemma like_eq {A B B'} (Q : B -> B' -> Prop) (x : res A) f g : (forall a, x = Val a -> like Q (f a) (g a)) -> like Q (bind x f) (bind x g).
Proof. destruct x; cbn; auto; constructor. Qed.
Lemma like_refl {A} (x : res A) : like eq x x.
Proof. destruct x; now constructor. Qed.

Section Sim.
Context {L L' : lang} (RE : env L -> env L' -> Prop) (Enter : forall e e', RE e e' -> RE (enter e) (enter e')).
Definition r1 {A} (x : A * env L) (y : A * env L') : Prop := fst x = fst y /\ RE (snd x) (snd y).
Definition inside (b : bytes) (r : range) : Prop := rstart r <= rend r <= length b.
Definition pat_like (p : pat L) (p' : pat L') : Prop := forall b r e e', inside b r -> RE e e' -> like r1 (pm p b r e) (pm p' b r e').
Definition nots_like (ps : list (pat L)) (ps' : list (pat L')) : Prop :=
  length ps = length ps' /\ forall b r e e', inside b r -> RE e e' -> like r1 (nm ps b r e) (nm ps' b r e').
Definition dags_like (ps : list (pat L)) (ps' : list (pat L')) : Prop :=
  forall b r e e', inside b r -> RE e e' -> like (fun x y => fst (fst x) = fst (fst y) /\ snd x = snd y /\ RE (snd (fst x)) (snd (fst y))) (dm ps b r e) (dm ps' b r e').
Lemma bounds_inside b s e r : bounds_of b s e = Val r -> inside b r.
Proof. intros H. apply bounds_of_val in H as (_ & _ & H). exact H. Qed.

(** how the patterns of CHECK, CHECK-NEXT, CHECK-SAME and CHECK-COUNT, those of CHECK-LABEL, and the sets of
    CHECK-NOT and of CHECK-DAG are related *)
Context (PL LB : pat L -> pat L' -> Prop) (NL DL : list (pat L) -> list (pat L') -> Prop).
Inductive rule_like : rule L -> rule L' -> Prop :=
| rl_plain p p' : PL p p' -> rule_like (RPlain p) (RPlain p')
| rl_next p p' : PL p p' -> rule_like (RNext p) (RNext p')
| rl_same p p' : PL p p' -> rule_like (RSame p) (RSame p')
| rl_empty : rule_like REmpty REmpty.
Inductive group_like : group L -> group L' -> Prop :=
| gl_never ps ps' : NL ps ps' -> group_like (GNever ps) (GNever ps')
| gl_unordered ds ds' : DL ds ds' -> group_like (GUnordered ds) (GUnordered ds')
| gl_bounded ds ds' g g' : DL ds ds' -> group_like g g' -> group_like (GBounded ds g) (GBounded ds' g')
| gl_ordered rs rs' : Forall2 rule_like rs rs' -> group_like (GOrdered rs) (GOrdered rs')
| gl_repeated r r' n : rule_like r r' -> group_like (GRepeated r n) (GRepeated r' n)
| gl_tree t t' : tree_like t t' -> group_like (GTree t) (GTree t')
with tree_like : tree L -> tree L' -> Prop :=
| tl_all g g' : group_like g g' -> tree_like (TAll g) (TAll g')
| tl_around ps ps' l l' r r' : NL ps ps' -> tree_like l l' -> tree_like r r' -> tree_like (TAround ps l r) (TAround ps' l' r')
| tl_before ps ps' l l' : NL ps ps' -> tree_like l l' -> tree_like (TBefore ps l) (TBefore ps' l')
| tl_after ps ps' r r' : NL ps ps' -> tree_like r r' -> tree_like (TAfter ps r) (TAfter ps' r').
Inductive section_like : section L -> section L' -> Prop :=
| sl_block p p' gs gs' : LB p p' -> Forall2 group_like gs gs' -> section_like (SBlock p gs) (SBlock p' gs')
| sl_group g g' : group_like g g' -> section_like (SGroup g) (SGroup g').

Inductive st_like : state L -> state L' -> Prop := stl c e e' : RE e e' -> st_like (mkState c e) (mkState c e').
Definition r2 {A} (x : A * state L) (y : A * state L') : Prop := fst x = fst y /\ st_like (snd x) (snd y).
Lemma r2_val {A} (a : A) s s' : st_like s s' -> like r2 (Val (a, s)) (Val (a, s')).
Proof. intros H. constructor. split; auto. Qed.

Section Exact.
Context (Exact : forall p p', PL p p' -> pat_like p p') (ExactL : forall p p', LB p p' -> pat_like p p')
  (ExactN : forall ps ps', NL ps ps' -> nots_like ps ps') (ExactD : forall ps ps', DL ps ps' -> dags_like ps ps').
Lemma match_mut_like p p' r s s' : pat_like p p' -> inside (buf s) r -> st_like s s' -> like r2 (match_mut p r s) (match_mut p' r s').
Proof.
  intros P In S. revert In. destruct S as [c e e' R]. intros In. unfold match_mut, buf in *. cbn [s_cur s_env] in *. eapply like_bind; [apply P; assumption|]. intros [m e1] [m' e1'] [E R1]. cbn in E, R1. subst m'.
  apply r2_val. destruct (m_is_ok m); now constructor.
Qed.
Lemma move_like s s' n : st_like s s' -> like st_like (move_start s n) (move_start s' n).
Proof. intros [c e e' R]. unfold move_start. cbn [s_cur s_env]. apply like_eq. intros c' _. constructor. now constructor. Qed.
Lemma advance_like m s s' : st_like s s' -> like st_like (advance m s) (advance m s').
Proof. intros H. unfold advance. destruct (m_info m); [|now constructor]. destruct (m_is_ok m); [now apply move_like|now constructor]. Qed.
Lemma cur_like s s' : st_like s s' -> s_cur s' = s_cur s.
Proof. now intros []. Qed.
Lemma buf_like s s' : st_like s s' -> buf s' = buf s.
Proof. now intros []. Qed.
Ltac cur := match goal with H : st_like ?s ?s' |- _ => rewrite (cur_like s s' H) in * end.
Ltac ins := unfold buf; eapply bounds_inside; match goal with H : _ = Val ?r |- bounds_of _ _ _ = Val ?r => exact H end.
Ltac step := eapply like_bind; [apply match_mut_like; [assumption|ins|assumption]|].

Lemma rule_sim r r' s s' : rule_like r r' -> st_like s s' -> like r2 (apply_rule r s) (apply_rule r' s').
Proof.
  intros RL S. destruct RL as [p p' P|p p' P|p p' P|]; cbn [apply_rule]; try apply Exact in P.
  - unfold apply_plain. rewrite (cur_like _ _ S). apply like_eq. intros x Ex. step. intros [m s1] [m' s1'] [E S1]. cbn in E, S1. subst m'.
    eapply like_bind; [now apply advance_like|]. intros s2 s2' S2. now apply r2_val.
  - unfold apply_next. rewrite (cur_like _ _ S). apply like_eq. intros x _. apply like_eq. intros o _. destruct (_ <=? _).
    + apply like_eq. intros _ _. now apply r2_val.
    + apply like_eq. intros rg Eg. step. intros [m s1] [m' s1'] [E S1]. cbn in E, S1. subst m'.
      eapply like_bind; [now apply advance_like|]. intros s2 s2' S2. now apply r2_val.
  - unfold apply_same. rewrite (cur_like _ _ S). apply like_eq. intros x Ex. step. intros [m s1] [m' s1'] [E S1]. cbn in E, S1. subst m'.
    destruct (m_info m) as [i|].
    + destruct (m_is_ok m); [|now apply r2_val]. rewrite (cur_like _ _ S1). apply like_eq. intros _ _. eapply like_bind; [now apply move_like|]. intros s2 s2' S2. now apply r2_val.
    + rewrite (cur_like _ _ S1). apply like_eq. intros rg Eg. step. intros [m2 s2] [m2' s2'] [E2 S2]. cbn in E2, S2. subst m2'. destruct (m_info m2); now apply r2_val.
  - unfold apply_empty. rewrite (cur_like _ _ S). apply like_eq. intros x _. apply like_eq. intros o _. apply like_eq. intros a _. destruct (_ && _)%bool.
    + eapply like_bind; [now apply move_like|]. intros s2 s2' S2. now apply r2_val.
    + apply like_eq. intros _ _. now apply r2_val.
Qed.
Lemma dag_sim ds ds' s s' : DL ds ds' -> st_like s s' -> like r2 (apply_dag ds s) (apply_dag ds' s').
Proof.
  intros D S. apply ExactD in D. destruct S as [c e e' R]. unfold apply_dag, buf. cbn [s_cur s_env]. apply like_eq. intros rg Er. eapply like_bind; [apply D; [eapply bounds_inside; exact Er|exact R]|].
  intros [[ms e1] pos] [[ms' e1'] pos'] (E1 & E2 & R1). cbn in E1, E2, R1. subst ms' pos'.
  assert (G : forall x, like r2 (do c0 <- x; Val (ms, if ms_ok ms then mkState c0 e1 else mkState c e)) (do c0 <- x; Val (ms, if ms_ok ms then mkState c0 e1' else mkState c e'))).
  { intros x. apply like_eq. intros c0 _. apply r2_val. destruct (ms_ok ms); now constructor. }
  apply G.
Qed.
Lemma not_sim ps ps' r s s' : NL ps ps' -> inside (buf s) r -> st_like s s' -> like r2 (check_not ps r s) (check_not ps' r s').
Proof.
  intros N0 In S. revert In. destruct S as [c e e' R]. intros In. apply ExactN in N0 as [_ N]. unfold check_not, buf in *. cbn [s_cur s_env] in *. eapply like_bind; [apply N; assumption|]. intros [m e1] [m' e1'] [E R1]. cbn in E, R1. subst m'.
  destruct (m_info m); [destruct (m_is_ok m)|]; try apply like_eq; intros; apply r2_val; now constructor.
Qed.
Definition r3 {A B} (x : A * B * state L) (y : A * B * state L') : Prop := fst x = fst y /\ st_like (snd x) (snd y).
Lemma r3_val {A B} (a : A) (b : B) s s' : st_like s s' -> like r3 (Val (a, b, s)) (Val (a, b, s')).
Proof. intros H. constructor. split; auto. Qed.
Lemma tree_not_sim ps ps' r t s s' : NL ps ps' -> inside (buf s) r -> st_like s s' -> like r3 (tree_not ps r t s) (tree_not ps' r t s').
Proof.
  intros N In S. unfold tree_not. rewrite <- (proj1 (ExactN _ _ N)). destruct (not_sim ps ps' r s s' N In S) as [[[i|u] s1] [x s1'] [E S1]| |]; try (cbn in E, S1; subst x).
  - now apply r3_val.
  - now apply r3_val.
  - now apply r3_val.
  - constructor.
Qed.
Lemma ordered_sim rs rs' : Forall2 rule_like rs rs' -> forall ms t s s', st_like s s' -> like r3 (check_ordered rs ms t s) (check_ordered rs' ms t s').
Proof.
  induction 1 as [|r r' rs rs' R F IH]; intros ms t s s' S; cbn [check_ordered].
  - apply like_eq. intros some _. now apply r3_val.
  - assert (En : (match rs with [] => true | _ => false end) = (match rs' with [] => true | _ => false end)) by (now destruct F).
    destruct (rule_sim r r' s s' R S) as [[m s1] [m' s1'] [E S1]| |]; try (cbn in E, S1; subst m').
    + destruct (ms_ok m); [auto|].
      replace (match flat_map (fun m => match m_ty m with Failed e => [e] | _ => [] end) m, rs' with [e], [] => e | _, _ => EGroup end)
        with (match flat_map (fun m => match m_ty m with Failed e => [e] | _ => [] end) m, rs with [e], [] => e | _, _ => EGroup end).
      * now apply r3_val.
      * destruct (flat_map _ m) as [|e0 [|e1 l]]; auto. now destruct rs, rs'.
    + auto.
    + constructor.
Qed.
Lemma repeated_sim r r' n : rule_like r r' -> forall ms t s s', st_like s s' -> like r3 (check_repeated r n ms t s) (check_repeated r' n ms t s').
Proof.
  intros R. induction n as [|n IH]; intros ms t s s' S; cbn [check_repeated]; [now apply r3_val|].
  destruct (rule_sim r r' s s' R S) as [[m s1] [m' s1'] [E S1]| |]; try (cbn in E, S1; subst m').
  - cbn zeta. destruct (existsb _ m); [now apply r3_val|auto].
  - now apply r3_val.
  - constructor.
Qed.
Lemma expect_sim x y : like r3 x y -> like r3 (expect_tree x) (expect_tree y).
Proof. intros H. unfold expect_tree. eapply like_bind; [exact H|]. intros [[g t] s] [[g' t'] s'] [E S]. cbn in E, S. injection E as <- <-. destruct g; try now apply r3_val. constructor. Qed.

Scheme group_ind2 := Induction for group Sort Prop with tree_ind2 := Induction for tree Sort Prop.
Combined Scheme group_tree_ind from group_ind2, tree_ind2.
Lemma group_tree_sim : (forall g g', group_like g g' -> forall t s s', st_like s s' -> like r3 (check_group g t s) (check_group g' t s')) /\
  (forall g g', tree_like g g' -> forall t s s', st_like s s' -> like r3 (check_tree g t s) (check_tree g' t s')).
Proof.
  assert (G : (forall (g : group L) g', group_like g g' -> forall t s s', st_like s s' -> like r3 (check_group g t s) (check_group g' t s')) /\
    (forall (g : tree L) g', tree_like g g' -> forall t s s', st_like s s' -> like r3 (check_tree g t s) (check_tree g' t s'))); [|exact G].
  apply group_tree_ind.
  - intros ps g' H t s s' S. inversion H as [? ps' N| | | | |]; subst. cbn [check_group]. rewrite (cur_like _ _ S). apply like_eq. intros r Er. rewrite <- (proj1 (ExactN _ _ N)).
    destruct (not_sim ps ps' r s s' N ltac:(ins) S) as [[[i|u] s1] [x s1'] [E S1]| |]; try (cbn in E, S1; subst x); try (now apply r3_val). constructor.
  - intros ds g' H t s s' S. inversion H as [|? ds' D| | | |]; subst. cbn [check_group].
    destruct (dag_sim ds ds' s s' D S) as [[m s1] [m' s1'] [E S1]| |]; try (cbn in E, S1; subst m'); [|now apply r3_val|constructor].
    apply like_eq. intros o _. now apply r3_val.
  - intros ds g IH g' H t s s' S. inversion H as [| |? ds' ? g2 D Gl| | |]; subst. cbn [check_group].
    destruct (dag_sim ds ds' s s' D S) as [[m s1] [m' s1'] [E S1]| |]; try (cbn in E, S1; subst m'); [| |constructor].
    + eapply like_bind; [apply IH; eassumption|]. intros [[x t1] s2] [[x' t1'] s2'] [E2 S2]. cbn in E2, S2. injection E2 as <- <-.
      destruct x as [rm|rm|er].
      * destruct rm as [|r0 rm]; [constructor|]. apply like_eq. intros o _. apply like_eq. intros rr _. apply like_eq. intros lo _. now apply r3_val.
      * apply like_eq. intros lo _. now apply r3_val.
      * apply like_eq. intros lo _. now apply r3_val.
    + eapply like_bind; [apply IH; eassumption|]. intros [[x t1] s2] [[x' t1'] s2'] [E2 S2]. cbn in E2, S2. injection E2 as <- <-.
      destruct x as [rm|rm|er]; [|now apply r3_val|now apply r3_val].
      destruct rm as [|r0 rm]; [constructor|]. apply like_eq. intros o _. apply like_eq. intros rr _. now apply r3_val.
  - intros rs g' H t s s' S. inversion H; subst. cbn [check_group]. now apply ordered_sim.
  - intros r n g' H t s s' S. inversion H; subst. cbn [check_group]. now apply repeated_sim.
  - intros tr IH g' H t s s' S. inversion H; subst. cbn [check_group]. auto.
  - intros g IH g' H t s s' S. inversion H; subst. cbn [check_tree]. auto.
  - intros root lt IHl rt IHr g' H t s s' S. inversion H as [|? root' ? lt' ? rt' N Hl Hr| |]; subst. cbn [check_tree].
    eapply like_bind; [apply expect_sim, IHl; eassumption|]. intros [[x t1] s1] [[x' t1'] s1'] [E1 S1]. cbn in E1, S1. injection E1 as <- <-.
    destruct x as [lm|lm|er]; [| |constructor].
    + apply like_eq. intros _ _. apply like_eq. intros le _. eapply like_bind; [apply expect_sim, IHr; eassumption|].
      intros [[x t2] s2] [[x' t2'] s2'] [E2 S2]. cbn in E2, S2. injection E2 as <- <-. destruct x as [rm|rm|er]; [| |constructor].
      * apply like_eq. intros _ _. apply like_eq. intros rs _. rewrite (cur_like _ _ S2). apply like_eq. intros ex Eex. eapply like_bind; [apply tree_not_sim; [assumption|ins|assumption]|].
        intros [[x t3] s3] [[x' t3'] s3'] [E3 S3]. cbn in E3, S3. injection E3 as <- <-. now apply r3_val.
      * rewrite <- (proj1 (ExactN _ _ N)). now apply r3_val.
    + rewrite (cur_like _ _ S1). cbn zeta. eapply like_bind; [apply expect_sim, IHr; eassumption|].
      intros [[x t2] s2] [[x' t2'] s2'] [E2 S2]. cbn in E2, S2. injection E2 as <- <-. destruct x as [rm|rm|er]; [| |constructor].
      * apply like_eq. intros _ _. apply like_eq. intros rs _. rewrite (cur_like _ _ S2). apply like_eq. intros ex Eex. eapply like_bind; [apply tree_not_sim; [assumption|ins|assumption]|].
        intros [[x t3] s3] [[x' t3'] s3'] [E3 S3]. cbn in E3, S3. injection E3 as <- <-. now apply r3_val.
      * rewrite <- (proj1 (ExactN _ _ N)). now apply r3_val.
  - intros root lt IHl g' H t s s' S. inversion H as [| |? root' ? lt' N Hl|]; subst. cbn [check_tree]. rewrite (cur_like _ _ S). cbn zeta.
    eapply like_bind; [apply expect_sim, IHl; eassumption|]. intros [[x t1] s1] [[x' t1'] s1'] [E1 S1]. cbn in E1, S1. injection E1 as <- <-.
    destruct x as [lm|lm|er]; [| |constructor]; rewrite (cur_like _ _ S1); try apply like_eq; intros; try apply like_eq; intros;
      (eapply like_bind; [apply tree_not_sim; [assumption|ins|assumption]|]; intros [[x t2] s2] [[x' t2'] s2'] [E2 S2]; cbn in E2, S2; injection E2 as <- <-; now apply r3_val).
  - intros root rt IHr g' H t s s' S. inversion H as [| | |? root' ? rt' N Hr]; subst. cbn [check_tree]. rewrite (cur_like _ _ S). cbn zeta.
    eapply like_bind; [apply expect_sim, IHr; eassumption|]. intros [[x t1] s1] [[x' t1'] s1'] [E1 S1]. cbn in E1, S1. injection E1 as <- <-.
    destruct x as [rm|rm|er]; [| |constructor].
    + apply like_eq. intros _ _. apply like_eq. intros rs _. rewrite (cur_like _ _ S1). apply like_eq. intros ex Eex. eapply like_bind; [apply tree_not_sim; [assumption|ins|assumption]|].
      intros [[x t3] s3] [[x' t3'] s3'] [E3 S3]. cbn in E3, S3. injection E3 as <- <-. now apply r3_val.
    + rewrite <- (proj1 (ExactN _ _ N)). now apply r3_val.
Qed.
Lemma groups_sim gs gs' : Forall2 group_like gs gs' -> forall t s s', st_like s s' -> like r2 (check_groups gs t s) (check_groups gs' t s').
Proof.
  induction 1 as [|g g' gs gs' G F IH]; intros t s s' S; cbn [check_groups]; [now apply r2_val|].
  eapply like_bind; [apply group_tree_sim; eassumption|]. intros [[x t1] s1] [[x' t1'] s1'] [E1 S1]. cbn in E1, S1. injection E1 as <- <-. now apply IH.
Qed.
Lemma discover_sim secs secs' : Forall2 section_like secs secs' -> forall i s s' rb er, st_like s s' ->
  like r3 (discover i secs s rb er) (discover i secs' s' rb er).
Proof.
  induction 1 as [|x x' secs secs' X F IH]; intros i s s' rb er S; cbn [discover]; [now apply r3_val|].
  destruct X as [p p' gs gs' P _|g g' _]; [|auto]. rewrite (cur_like _ _ S). apply like_eq. intros rg Erg. cbn zeta. rewrite (buf_like _ _ S).
  destruct S as [c e e' R]. unfold buf. cbn [s_cur s_env]. destruct (ExactL _ _ P c.(c_buf) rg e e' ltac:(eapply bounds_inside; exact Erg) R) as [[m e1] [m' e1'] [E R1]| |]; try (cbn in E, R1; subst m').
  - destruct (m_info m) as [info|].
    + apply like_eq. intros o _. apply like_eq. intros pr _. apply like_eq. intros c' _. apply IH. now constructor.
    + apply IH. now constructor.
  - apply IH. now constructor.
  - constructor.
Qed.
Lemma sections_length secs secs' : Forall2 section_like secs secs' -> length secs = length secs'.
Proof. induction 1; cbn; auto. Qed.
Lemma count_sim secs secs' : Forall2 section_like secs secs' -> count_while (fun x => negb (is_block x)) secs = count_while (fun x => negb (is_block x)) secs'.
Proof. induction 1 as [|x x' secs secs' X F IH]; [reflexivity|]. cbn [count_while]. destruct X; cbn [is_block negb]; [reflexivity|now rewrite IH]. Qed.
Lemma discover_blocks_sim secs secs' s s' : Forall2 section_like secs secs' -> st_like s s' -> like r2 (discover_blocks secs s) (discover_blocks secs' s').
Proof.
  intros F S. unfold discover_blocks. rewrite <- (count_sim _ _ F).
  assert (E : match secs with SBlock _ _ :: _ => [] | _ => [mkBlock None (0, count_while (fun x => negb (is_block x)) secs) (Some 0) None] end =
              match secs' with SBlock _ _ :: _ => [] | _ => [mkBlock None (0, count_while (fun x => negb (is_block x)) secs) (Some 0) None] end).
  { destruct F as [|x x' secs secs' [] F]; reflexivity. }
  cbn zeta. rewrite <- E. eapply like_bind; [now apply discover_sim|]. intros [[rb er] s1] [[rb' er'] s1'] [E1 S1]. cbn in E1, S1. injection E1 as <- <-.
  rewrite (cur_like _ _ S1). apply like_eq. intros c _. destruct S1 as [c1 e e' R]. apply r2_val. now constructor.
Qed.
Lemma groups_of_sim secs secs' : Forall2 section_like secs secs' -> like (Forall2 group_like) (groups_of secs) (groups_of secs').
Proof.
  unfold groups_of. induction 1 as [|x x' secs secs' X F IH]; cbn [fold_right]; [constructor; constructor|].
  eapply like_bind; [exact IH|]. intros gs gs' G. destruct X; [constructor|]. constructor. now constructor.
Qed.
Lemma Forall2_firstn {A B} (R : A -> B -> Prop) l l' : Forall2 R l l' -> forall n, Forall2 R (firstn n l) (firstn n l').
Proof. induction 1; intros [|n]; cbn; constructor; auto. Qed.
Lemma Forall2_skipn {A B} (R : A -> B -> Prop) l l' : Forall2 R l l' -> forall n, Forall2 R (skipn n l) (skipn n l').
Proof. intros H. induction H; intros [|n]; cbn; auto. Qed.
Lemma check_block_sim secs secs' bl t s s' : Forall2 section_like secs secs' -> st_like s s' -> like r2 (check_block secs bl t s) (check_block secs' bl t s').
Proof.
  intros F S. unfold check_block. cbn zeta. destruct (b_start bl) as [st|]; [|now apply r2_val]. rewrite (buf_like _ _ S), (cur_like _ _ S).
  apply like_eq. intros rg _. apply like_eq. intros c _. destruct (b_secs bl) as [lo hi].
  assert (S1 : st_like (mkState c (enter (s_env s))) (mkState c (enter (s_env s')))) by (destruct S as [c0 e e' R]; constructor; cbn; auto).
  destruct (hi <=? lo); [now apply r2_val|]. destruct (1 <? hi - lo).
  - eapply like_bind; [apply groups_of_sim; apply Forall2_firstn, Forall2_skipn; exact F|]. intros gs gs' G. now apply groups_sim.
  - assert (N : forall k, match nth_error secs k, nth_error secs' k with Some x, Some x' => section_like x x' | None, None => True | _, _ => False end).
    { clear -F. induction F as [|x x' secs secs' X F IH]; intros [|k]; cbn; auto; apply IH. }
    specialize (N lo). destruct (nth_error secs lo) as [x|], (nth_error secs' lo) as [x'|]; try easy; [|constructor].
    destruct N as [p p' gs gs' P G|g g' G]; apply groups_sim; auto.
Qed.
Lemma check_blocks_sim secs secs' bs : Forall2 section_like secs secs' -> forall t s s', st_like s s' -> like r2 (check_blocks secs bs t s) (check_blocks secs' bs t s').
Proof.
  intros F. induction bs as [|bl bs IH]; intros t s s' S; cbn [check_blocks]; [now apply r2_val|].
  eapply like_bind; [now apply check_block_sim|]. intros [t1 s1] [t1' s1'] [E1 S1]. cbn in E1, S1. subst t1'. auto.
Qed.
Theorem check_input_sim allow secs secs' b e e' : Forall2 section_like secs secs' -> RE e e' -> check_input allow secs b e = check_input allow secs' b e'.
Proof.
  intros F R. assert (G : like eq (check_input allow secs b e) (check_input allow secs' b e')); [|destruct G; congruence].
  unfold check_input. apply like_eq. intros c _. destruct (_ && _)%bool; [apply like_refl|].
  eapply like_bind; [apply discover_blocks_sim; [exact F|now constructor]|]. intros [bs s] [bs' s'] [E S]. cbn in E, S. subst bs'. destruct bs as [blocks|errors]; [|apply like_refl].
  eapply like_bind; [now apply check_blocks_sim|]. intros [t s1] [t' s1'] [E1 S1]. cbn in E1. subst t'. constructor. reflexivity.
Qed.
End Exact.

(** Check lines related kind by kind compile to related sections. *)
Context (RK : kind -> pat L -> pat L' -> Prop)
  (Single : forall k p p', match k with KNot | KDag | KEmpty | KLabel => False | _ => True end -> RK k p p' -> PL p p')
  (Labels : forall p p', RK KLabel p p' -> LB p p')
  (QN QD : list (pat L) -> Prop)
  (Nots : forall ps ps', ps <> [] -> QN ps -> Forall2 (RK KNot) ps ps' -> NL ps ps')
  (Dags : forall ps ps', ps <> [] -> QD ps -> Forall2 (RK KDag) ps ps' -> DL ps ps').
(** every run of directives of a kind *)
Definition runs (k : kind) (Q : list (pat L) -> Prop) (ls : list (line L)) : Prop :=
  forall pre run post, ls = pre ++ run ++ post -> Forall (fun l => l_kind l = k) run -> run <> [] -> Q (map l_pat run).
Lemma runs_suffix k Q a ls : runs k Q (a ++ ls) -> runs k Q ls.
Proof. intros H pre run post -> . apply (H (a ++ pre) run post). now rewrite app_assoc. Qed.
Lemma runs_prefix k Q a ls : runs k Q (ls ++ a) -> runs k Q ls.
Proof. intros H pre run post -> . apply (H pre run (post ++ a)). now rewrite <- !app_assoc. Qed.
Inductive line_like : line L -> line L' -> Prop := ll k p p' : RK k p p' -> line_like (mkLine k p) (mkLine k p').
Inductive imp_like : option (pat L) -> option (pat L') -> Prop :=
| il_none : imp_like None None
| il_some p p' : RK KNot p p' -> imp_like (Some p) (Some p').
Inductive opt_like {A B} (R : A -> B -> Prop) : option A -> option B -> Prop :=
| ol_none : opt_like R None None
| ol_some a b : R a b -> opt_like R (Some a) (Some b).
Definition block_like (x : option (line L) * list (line L)) (y : option (line L') * list (line L')) : Prop :=
  opt_like (fun l l' => l_kind l = KLabel /\ line_like l l') (fst x) (fst y) /\ Forall2 line_like (snd x) (snd y).
Lemma implicit_like imp imp' : imp_like imp imp' -> Forall2 line_like (implicit_line imp) (implicit_line imp').
Proof. destruct 1; cbn; constructor; [now constructor|constructor]. Qed.
Lemma Forall2_exist {A B} (R : A -> B -> Prop) f g l l' : (forall a b, R a b -> f a = g b) -> Forall2 R l l' -> existsb f l = existsb g l'.
Proof. intros H. induction 1 as [|a b l l' R1 F IH]; cbn; [reflexivity|]. now rewrite (H _ _ R1), IH. Qed.
Lemma Forall2_snoc {A B} (R : A -> B -> Prop) l l' a b : Forall2 R l l' -> R a b -> Forall2 R (l ++ [a]) (l' ++ [b]).
Proof. intros F H. apply Forall2_app; auto. Qed.
Lemma compile_lines_sim imp imp' : imp_like imp imp' -> forall lines lines', Forall2 line_like lines lines' ->
  forall label label' block block' blocks blocks', block_like (label, block) (label', block') -> Forall2 block_like blocks blocks' ->
  like (Forall2 block_like) (compile_lines imp lines label block blocks) (compile_lines imp' lines' label' block' blocks').
Proof.
  intros I lines lines' F. induction F as [|l l' lines lines' X F IH]; intros label label' block block' blocks blocks' B Bs; cbn [compile_lines].
  - destruct B as [B1 B2]. cbn [fst snd] in B1, B2. destruct B1 as [|a b B1].
    + destruct B2 as [|y y' block block' Y B2]; constructor; auto. apply Forall2_snoc; auto. split; cbn; [constructor|now constructor].
    + constructor. apply Forall2_snoc; auto. split; cbn; [now constructor|auto].
  - destruct B as [B1 B2]. cbn [fst snd] in B1, B2. destruct X as [k p p' X]. cbn [l_kind].
    assert (Dep : (dependent (mkLine k p) && negb (existsb independent block))%bool = (dependent (mkLine k p') && negb (existsb independent block'))%bool).
    { f_equal. f_equal. eapply Forall2_exist; [|exact B2]. intros x y [k0 q q' _]. reflexivity. }
    assert (One : line_like (mkLine k p) (mkLine k p')) by now constructor.
    assert (Push : Forall2 line_like (block ++ [mkLine k p]) (block' ++ [mkLine k p'])) by now apply Forall2_snoc.
    assert (Push2 : Forall2 line_like (block ++ mkLine k p :: implicit_line imp) (block' ++ mkLine k p' :: implicit_line imp')).
    { apply Forall2_app; auto. constructor; auto. now apply implicit_like. }
    assert (IHn : like (Forall2 block_like) (compile_lines imp lines label (block ++ [mkLine k p]) blocks) (compile_lines imp' lines' label' (block' ++ [mkLine k p']) blocks')).
    { apply IH; auto. split; cbn; auto. }
    assert (IHp : like (Forall2 block_like) (compile_lines imp lines label (block ++ mkLine k p :: implicit_line imp) blocks) (compile_lines imp' lines' label' (block' ++ mkLine k p' :: implicit_line imp') blocks')).
    { apply IH; auto. split; cbn; auto. }
    destruct k; try (destruct B1; [rewrite Dep; clear Dep; destruct (_ && _)%bool; [constructor|exact IHp]|exact IHn]).
    + destruct B1; exact IHn.
    + assert (Lab : opt_like (fun l l' => l_kind l = KLabel /\ line_like l l') (Some (mkLine KLabel p)) (Some (mkLine KLabel p'))) by (constructor; auto).
      assert (I2 : like (Forall2 block_like) (compile_lines imp lines (Some (mkLine KLabel p)) (implicit_line imp) (blocks ++ [(label, block)]))
        (compile_lines imp' lines' (Some (mkLine KLabel p')) (implicit_line imp') (blocks' ++ [(label', block')]))).
      { apply IH; [split; cbn; auto; now apply implicit_like|]. apply Forall2_snoc; auto. split; auto. }
      destruct B1 as [|a b B1]; [|exact I2]. destruct B2 as [|y y' block block' Y B2]; [|exact I2]. apply IH; auto. split; cbn; auto.
Qed.
Lemma take_sim f g : (forall l l', line_like l l' -> f l = g l') -> forall ls ls', Forall2 line_like ls ls' ->
  Forall2 line_like (fst (take_while f ls)) (fst (take_while g ls')) /\ Forall2 line_like (snd (take_while f ls)) (snd (take_while g ls')).
Proof.
  intros H ls ls'. induction 1 as [|l l' ls ls' X F [IH1 IH2]]; cbn; [split; constructor|]. rewrite <- (H _ _ X). destruct (f l).
  - destruct (take_while f ls), (take_while g ls'). cbn in *. split; auto.
  - cbn. split; auto.
Qed.
Lemma take_all {A} (f : A -> bool) l : Forall (fun x => f x = true) (fst (take_while f l)).
Proof. induction l as [|x l IH]; cbn; [constructor|]. destruct (f x) eqn:E; [|constructor]. destruct (take_while f l). cbn in *. now constructor. Qed.
Lemma rule_compile_sim l l' : line_like l l' -> like rule_like (compile_rule l) (compile_rule l').
Proof.
  destruct 1 as [k p p' R]. unfold compile_rule. cbn [l_kind l_pat].
  destruct k; try constructor; try constructor; eapply Single; try exact R; cbn; auto.
Qed.
Lemma rules_compile_sim ls ls' : Forall2 line_like ls ls' -> like (Forall2 rule_like) (compile_rules ls) (compile_rules ls').
Proof.
  induction 1 as [|l l' ls ls' X F IH]; cbn [compile_rules]; [constructor; constructor|]. eapply like_bind; [now apply rule_compile_sim|]. intros x x' XX.
  eapply like_bind; [exact IH|]. intros xs xs' XS. constructor. now constructor.
Qed.
Lemma take_app {A} (f : A -> bool) l : l = fst (take_while f l) ++ snd (take_while f l).
Proof. induction l as [|x l IH]; cbn; [reflexivity|]. destruct (f x); [|reflexivity]. destruct (take_while f l). cbn in *. now f_equal. Qed.
Definition pend_like : pending -> pending -> Prop := opt_like (fun x y => opt_like tree_like (fst x) (fst y) /\ NL (snd x) (snd y)).
Lemma push_sim g g' pend pend' gs gs' : group_like g g' -> pend_like pend pend' -> Forall2 group_like gs gs' ->
  Forall2 group_like (push_group g pend gs) (push_group g' pend' gs').
Proof.
  intros G P F. destruct P as [|[o ps] [o' ps'] [O N]]; cbn [push_group]; [now constructor|]. cbn [fst snd] in O, N. destruct O; cbn [push_group].
  - constructor; auto. constructor. constructor; auto. now constructor.
  - constructor; auto. constructor. constructor; auto. now constructor.
Qed.
Lemma pats_sim k ls ls' : Forall2 line_like ls ls' -> Forall (fun l => l_kind l = k) ls -> Forall2 (RK k) (map l_pat ls) (map l_pat ls').
Proof.
  induction 1 as [|l l' ls ls' X F IH]; intros H; cbn; constructor; inversion H; subst; auto. destruct X. cbn in *. assumption.
Qed.
Lemma nots_taken l l' ls ls' : line_like l l' -> l_kind l = KNot -> runs KNot QN (l :: ls) -> Forall2 line_like ls ls' ->
  NL (map l_pat (l :: fst (take_while is_kind_not ls))) (map l_pat (l' :: fst (take_while is_kind_not ls'))).
Proof.
  intros X K R F. assert (A : Forall (fun l => l_kind l = KNot) (l :: fst (take_while is_kind_not ls))).
  { constructor; auto. eapply Forall_impl; [|apply take_all]. intros [k p]. unfold is_kind_not. cbn. now destruct k. }
  apply Nots; [easy| |].
  - apply (R [] _ (snd (take_while is_kind_not ls))); [|exact A|easy]. cbn. f_equal. apply take_app.
  - apply pats_sim; [|exact A]. constructor; auto. apply take_sim; auto. now intros ? ? [].
Qed.
Lemma dags_taken l l' ls ls' : line_like l l' -> l_kind l = KDag -> runs KDag QD (l :: ls) -> Forall2 line_like ls ls' ->
  DL (map l_pat (l :: fst (take_while is_kind_dag ls))) (map l_pat (l' :: fst (take_while is_kind_dag ls'))).
Proof.
  intros X K R F. assert (A : Forall (fun l => l_kind l = KDag) (l :: fst (take_while is_kind_dag ls))).
  { constructor; auto. eapply Forall_impl; [|apply take_all]. intros [k p]. unfold is_kind_dag. cbn. now destruct k. }
  apply Dags; [easy| |].
  - apply (R [] _ (snd (take_while is_kind_dag ls))); [|exact A|easy]. cbn. f_equal. apply take_app.
  - apply pats_sim; [|exact A]. constructor; auto. apply take_sim; auto. now intros ? ? [].
Qed.
Definition fit (ls : list (line L)) : Prop := runs KNot QN ls /\ runs KDag QD ls.
Lemma fit_tail a ls : fit (a :: ls) -> fit ls.
Proof. intros [A B]. split; [apply (runs_suffix _ _ [a]); exact A|apply (runs_suffix _ _ [a]); exact B]. Qed.
Lemma fit_rest f ls : fit ls -> fit (snd (take_while f ls)).
Proof. intros H. rewrite (take_app f ls) in H. destruct H as [A B]. split; eapply runs_suffix; eassumption. Qed.
Lemma pairs {A B} (x : A * B) a b : x = (a, b) -> fst x = a /\ snd x = b.
Proof. now intros ->. Qed.
Lemma compile_body_sim fuel : forall body body' pend pend' gs gs', Forall2 line_like body body' -> fit body -> pend_like pend pend' -> Forall2 group_like gs gs' ->
  like (fun x y => pend_like (fst x) (fst y) /\ Forall2 group_like (snd x) (snd y)) (compile_body fuel body pend gs) (compile_body fuel body' pend' gs').
Proof.
  induction fuel as [|fuel IH]; intros body body' pend pend' gs gs' F Ft P G.
  - destruct F; cbn [compile_body]; constructor. auto.
  - pose proof F as F0. destruct F as [|l l' body body' X F]; cbn [compile_body]; [now constructor|].
    assert (K : l_kind l' = l_kind l) by now destruct X.
    assert (None0 : pend_like None None) by constructor. pose proof (fit_tail _ _ Ft) as Ft1.
    assert (Ord : like (fun x y => pend_like (fst x) (fst y) /\ Forall2 group_like (snd x) (snd y))
      (let (now, rest) := take_while in_ordered (l :: body) in do rs <- compile_rules now; compile_body fuel rest None (push_group (GOrdered rs) pend gs))
      (let (now, rest) := take_while in_ordered (l' :: body') in do rs <- compile_rules now; compile_body fuel rest None (push_group (GOrdered rs) pend' gs'))).
    { destruct (take_sim in_ordered in_ordered (ltac:(now intros ? ? [])) _ _ F0) as [T1 T2].
      pose proof (fit_rest in_ordered _ Ft) as Ft2.
      destruct (take_while in_ordered (l :: body)) as [nw rest], (take_while in_ordered (l' :: body')) as [nw' rest']. cbn [fst snd] in T1, T2, Ft2.
      eapply like_bind; [apply rules_compile_sim; exact T1|]. intros rs rs' R. apply IH; auto. apply push_sim; auto. now constructor. }
    rewrite K. destruct (l_kind l) eqn:Kl; try exact Ord.
    + eapply like_bind; [now apply rule_compile_sim|]. intros r r' R. apply IH; auto. apply push_sim; auto. now constructor.
    + pose proof (nots_taken l l' body body' X Kl (proj1 Ft) F) as N. pose proof (fit_rest is_kind_not _ Ft1) as Ft2.
      destruct (take_sim is_kind_not is_kind_not (ltac:(now intros ? ? [])) _ _ F) as [T1 T2].
      destruct (take_while is_kind_not body) as [more rest], (take_while is_kind_not body') as [more' rest']. cbn [fst snd] in T1, T2, N, Ft2.
      replace (match pend' with None => true | Some _ => false end) with (match pend with None => true | Some _ => false end) by (now destruct P).
      apply like_eq. intros _ _. cbn zeta. destruct T2 as [|l2 l2' rest rest' X2 T2].
      * apply IH; auto. destruct G as [|g g' gs gs' Gl G].
        -- constructor; constructor. exact N.
        -- destruct Gl; repeat (constructor; auto).
      * assert (T3 : Forall2 line_like (l2 :: rest) (l2' :: rest')) by now constructor.
        destruct G as [|g g' gs gs' Gl G].
        -- apply IH; auto. constructor. split; cbn; [constructor|exact N].
        -- destruct Gl; apply IH; auto; try (constructor; split; cbn; [repeat (constructor; auto)|exact N]); constructor; auto; constructor; auto.
    + pose proof (dags_taken l l' body body' X Kl (proj2 Ft) F) as D. pose proof (fit_rest is_kind_dag _ Ft1) as Ft2.
      destruct (take_sim is_kind_dag is_kind_dag (ltac:(now intros ? ? [])) _ _ F) as [T1 T2].
      destruct (take_while is_kind_dag body) as [more rest], (take_while is_kind_dag body') as [more' rest']. cbn [fst snd] in T1, T2, D, Ft2. cbn zeta.
      assert (Un : Forall2 group_like (push_group (GUnordered (map l_pat (l :: more))) pend gs) (push_group (GUnordered (map l_pat (l' :: more'))) pend' gs')).
      { apply push_sim; auto. now constructor. }
      destruct T2 as [|l2 l2' rest rest' X2 T2]; [apply IH; auto|].
      assert (K2 : l_kind l2' = l_kind l2) by now destruct X2. rewrite K2.
      assert (T3 : Forall2 line_like (l2 :: rest) (l2' :: rest')) by now constructor.
      pose proof (fit_tail _ _ Ft2) as Ft3. destruct (l_kind l2); try (apply IH; auto; fail).
      * eapply like_bind; [now apply rule_compile_sim|]. intros r r' R. apply IH; auto. apply push_sim; auto. constructor; auto. constructor. auto.
      * eapply like_bind; [now apply rule_compile_sim|]. intros r r' R. apply IH; auto. apply push_sim; auto. constructor; auto. constructor. auto.
Qed.
Lemma Forall2_len {A B} (R : A -> B -> Prop) l l' : Forall2 R l l' -> length l = length l'.
Proof. induction 1; cbn; auto. Qed.
Lemma Forall2_reverse {A B} (R : A -> B -> Prop) l l' : Forall2 R l l' -> Forall2 R (rev l) (rev l').
Proof. induction 1; cbn; [constructor|now apply Forall2_snoc]. Qed.
Lemma compile_block_sim b b' : block_like b b' -> fit (snd b) -> like (Forall2 section_like) (compile_block b) (compile_block b').
Proof.
  destruct b as [label body], b' as [label' body']. intros [B1 B2] Ft. cbn [fst snd] in B1, B2, Ft. unfold compile_block. rewrite <- (Forall2_len _ _ _ B2).
  eapply like_bind; [apply compile_body_sim; [exact B2|exact Ft|constructor|constructor]|]. intros [pend gs] [pend' gs'] [P G]. cbn [fst snd] in P, G.
  replace (match pend' with None => true | Some _ => false end) with (match pend with None => true | Some _ => false end) by (now destruct P).
  apply like_eq. intros _ _. constructor. apply Forall2_reverse in G. destruct B1 as [|l l' [K X]].
  - clear -G. induction G; cbn; constructor; auto. now constructor.
  - constructor; [|constructor]. destruct X as [k p p' X]. cbn in K. subst k. constructor; auto.
Qed.
Lemma compile_blocks_sim bs bs' : Forall2 block_like bs bs' -> Forall (fun b => fit (snd b)) bs -> like (Forall2 section_like) (compile_blocks bs) (compile_blocks bs').
Proof.
  induction 1 as [|b b' bs bs' B F IH]; cbn [compile_blocks]; intros Ft; [constructor; constructor|].
  assert (Fb : fit (snd b)) by now inversion Ft. assert (Fr : Forall (fun b => fit (snd b)) bs) by now inversion Ft. eapply like_bind; [now apply compile_block_sim|].
  intros x x' X. eapply like_bind; [exact (IH Fr)|]. intros y y' Y. constructor. now apply Forall2_app.
Qed.

(** Without --implicit-check-not the bodies of the blocks are parts of the file. *)
Definition block_lines (b : option (line L) * list (line L)) : list (line L) := match fst b with Some l => l :: snd b | None => snd b end.
Lemma blocks_are_lines lines : forall label block blocks bs, compile_lines None lines label block blocks = Val bs ->
  flat_map block_lines bs = flat_map block_lines blocks ++ block_lines (label, block) ++ lines.
Proof.
  induction lines as [|l lines IH]; intros label block blocks bs; cbn [compile_lines implicit_line].
  - intros [= <-]. destruct label as [x|]; [|destruct block as [|y block]]; cbn [block_lines fst snd]; rewrite ?flat_map_app, ?app_nil_r; cbn; rewrite ?app_nil_r; reflexivity.
  - assert (Push : forall bs, compile_lines None lines label (block ++ [l]) blocks = Val bs -> flat_map block_lines bs = flat_map block_lines blocks ++ block_lines (label, block) ++ l :: lines).
    { intros bs0 H. rewrite (IH _ _ _ _ H). f_equal. unfold block_lines. cbn [fst snd]. destruct label; cbn; now rewrite <- app_assoc. }
    assert (Lab : forall bs, match label, block with None, [] => compile_lines None lines (Some l) block blocks | _, _ => compile_lines None lines (Some l) [] (blocks ++ [(label, block)]) end = Val bs ->
      flat_map block_lines bs = flat_map block_lines blocks ++ block_lines (label, block) ++ l :: lines).
    { intros bs0 H. assert (G : compile_lines None lines (Some l) [] (blocks ++ [(label, block)]) = Val bs0 -> flat_map block_lines bs0 = flat_map block_lines blocks ++ block_lines (label, block) ++ l :: lines).
      { intros H'. rewrite (IH _ _ _ _ H'), flat_map_app. cbn. rewrite app_nil_r, <- app_assoc. reflexivity. }
      destruct label; [auto|]. destruct block; [|auto]. rewrite (IH _ _ _ _ H). reflexivity. }
    destruct (l_kind l); try exact (Lab bs); try exact (Push bs); destruct label; try exact (Push bs);
      (destruct (_ && _)%bool; [discriminate|exact (Push bs)]).
Qed.
Lemma fit_blocks bs : fit (flat_map block_lines bs) -> Forall (fun b => fit (snd b)) bs.
Proof.
  induction bs as [|b bs IH]; intros H; constructor.
  - assert (H1 : fit (block_lines b)) by (destruct H as [A B]; split; eapply runs_prefix; eassumption). unfold block_lines in H1. destruct (fst b); [now apply fit_tail in H1|exact H1].
  - apply IH. destruct H as [A B]. split; eapply runs_suffix; eassumption.
Qed.
Theorem compile_sim_implicit imp imp' lines lines' : imp_like imp imp' -> Forall2 line_like lines lines' ->
  (forall bs, compile_lines imp lines None (implicit_line imp) [] = Val bs -> Forall (fun b => fit (snd b)) bs) ->
  like (Forall2 section_like) (compile imp lines) (compile imp' lines').
Proof.
  intros I F Ft. unfold compile. assert (B : like (Forall2 section_like) (do bs <- compile_lines imp lines None (implicit_line imp) []; compile_blocks bs)
    (do bs <- compile_lines imp' lines' None (implicit_line imp') []; compile_blocks bs)).
  { assert (C : like (Forall2 block_like) (compile_lines imp lines None (implicit_line imp) []) (compile_lines imp' lines' None (implicit_line imp') [])).
    { apply compile_lines_sim; [exact I|exact F|split; [constructor|now apply implicit_like]|constructor]. }
    destruct (compile_lines imp lines None (implicit_line imp) []) as [bs| |] eqn:E; destruct (compile_lines imp' lines' None (implicit_line imp') []) as [bs'| |]; try (now inversion C); cbn [bind]; try constructor.
    apply compile_blocks_sim; [now inversion C|]. now apply Ft. }
  destruct F; try exact B. destruct I; [constructor|exact B].
Qed.
Theorem compile_sim lines lines' : Forall2 line_like lines lines' -> fit lines ->
  like (Forall2 section_like) (compile None lines) (compile None lines').
Proof.
  intros F Ft. apply compile_sim_implicit; [constructor|exact F|]. intros bs E. apply blocks_are_lines in E. cbn in E. apply fit_blocks. now rewrite E.
Qed.
End Sim.
