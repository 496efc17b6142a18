From Verif Require Import Base Text_Model Cursor_Model Env_Model Env_Spec.
Ltac splits := repeat match goal with |- _ /\ _ => split end.
Section P.
Context {V : Type}.

Lemma vname_eqb_eq a b : vname_eqb a b = true <-> a = b.
Proof.
  destruct a, b; simpl; try (split; [discriminate|intros H; discriminate]); rewrite str_eqb_eq; split; congruence.
Qed.
Lemma vname_dec (a b : vname) : {a = b} + {a <> b}.
Proof. destruct (vname_eqb a b) eqn:E; [left; now apply vname_eqb_eq|right; intros H; apply vname_eqb_eq in H; congruence]. Qed.

(** The last binding of a list, by computation. *)
Fixpoint last_of (l : list (vname * V)) (n : vname) : option V :=
  match l with
  | [] => None
  | (n', v) :: r => match last_of r n with Some w => Some w | None => if vname_eqb n' n then Some v else None end
  end.
Lemma last_of_app l1 l2 n : last_of (l1 ++ l2) n = or_else (last_of l2 n) (last_of l1 n).
Proof.
  induction l1 as [|[n' v] l1 IH]; simpl; [destruct (last_of l2 n); reflexivity|].
  rewrite IH. destruct (last_of l2 n); reflexivity.
Qed.
Lemma last_of_none l n : last_of l n = None -> forall v, ~ In (n, v) l.
Proof.
  induction l as [|[n' v'] l IH]; simpl; [tauto|]; intros H v [E|I].
  - injection E as -> ->. destruct (last_of l n); [discriminate|]. rewrite (proj2 (vname_eqb_eq n n) eq_refl) in H. discriminate.
  - destruct (last_of l n); [discriminate|]. exact (IH eq_refl v I).
Qed.
Lemma last_of_bound l n : bound_last l n (last_of l n).
Proof.
  induction l as [|[n' v] l IH]; simpl; [constructor; auto|].
  destruct (last_of l n) as [w|] eqn:L.
  - inversion IH; subst. exact (Bl_some ((n', v) :: before) n w after H2).
  - destruct (vname_eqb n' n) eqn:E.
    + apply vname_eqb_eq in E as ->. exact (Bl_some [] n v l (last_of_none l n L)).
    + constructor. intros v' [X|X].
      * injection X as -> ->. now rewrite (proj2 (vname_eqb_eq n n) eq_refl) in E.
      * exact (last_of_none l n L v' X).
Qed.
Lemma system_defined (defs : list (vname * V)) s : defined_last defs s (system_of defs s).
Proof.
  unfold system_of. rewrite <- fold_left_rev_right. rewrite <- (rev_involutive defs) at 1.
  induction (rev defs) as [|[n v] l IH]; simpl; [constructor; intros n v []|].
  unfold s_insert at 1. destruct (str_eqb (v_text n) s) eqn:E.
  - apply str_eqb_eq in E as <-. apply (Dl_some (rev l) n v []). intros n' v' [].
  - inversion IH; subst.
    + rewrite <- app_assoc. simpl. apply Dl_some. intros n' v' I. apply in_app_or in I as [I|[I|[]]]; eauto.
      injection I as <- <-. now apply str_eqb_neq.
    + constructor. intros n' v' I. apply in_app_or in I as [I|[I|[]]]; eauto.
      injection I as <- <-. now apply str_eqb_neq.
Qed.

(** [b'] is [b] with the bindings [l] added. *)
Definition local_of (l : list (vname * V)) (n : vname) : option V := match n with Global _ => None | _ => last_of l n end.
Record adds (b : bindings V) (l : list (vname * V)) (b' : bindings V) : Prop := {
  ad_s : forall s, b_system b' s = b_system b s;
  ad_g : forall s, b_global b' s = or_else (last_of l (Global s)) (b_global b s);
  ad_b : forall n, b_bound b' n = or_else (local_of l n) (b_bound b n) }.
Lemma local_of_app l1 l2 n : local_of (l1 ++ l2) n = or_else (local_of l2 n) (local_of l1 n).
Proof. destruct n; simpl; auto using last_of_app. Qed.
Lemma or_else_assoc (a b c : option V) : or_else a (or_else b c) = or_else (or_else a b) c.
Proof. destruct a; auto. Qed.
Lemma adds_refl b : adds b [] b.
Proof. split; auto. intros []; auto. Qed.
Lemma adds_trans b l1 b1 l2 b2 : adds b l1 b1 -> adds b1 l2 b2 -> adds b (l1 ++ l2) b2.
Proof.
  intros [S1 G1 B1] [S2 G2 B2]. split; intros.
  - now rewrite S2, S1.
  - now rewrite G2, G1, last_of_app, or_else_assoc.
  - now rewrite B2, B1, local_of_app, or_else_assoc.
Qed.
Lemma adds_insert b n v : adds b [(n, v)] (b_insert b n v).
Proof.
  split; intros.
  - destruct n; reflexivity.
  - destruct n as [x|x|x]; simpl; auto. unfold s_insert. destruct (str_eqb x s); auto.
  - destruct n as [x|x|x], n0 as [y|y|y]; simpl; auto; unfold v_insert; simpl; destruct (str_eqb x y); auto.
Qed.
Lemma adds_merge b l b' : adds b l b' -> adds b l (b_merge b b').
Proof.
  intros [S1 G1 B1]. split; intros; simpl; auto.
  - unfold union. rewrite G1. destruct (last_of l (Global s)); simpl; auto. destruct (b_global b s); auto.
  - unfold union. rewrite B1. destruct (local_of l n); simpl; auto. destruct (b_bound b n); auto.
Qed.
(** A guard that has lost some of the local bindings of what it guards. *)
Record thin (p g : bindings V) : Prop := {
  th_g : forall s, b_global g s = b_global p s;
  th_b : forall n, b_bound g n = b_bound p n \/ b_bound g n = None }.
Lemma thin_refl p : thin p p.
Proof. split; auto. Qed.
Lemma thin_adds p g l g' : thin p g -> adds g l g' -> adds p l (b_merge p g').
Proof.
  intros [TG TB] [S1 G1 B1]. split; intros; simpl; auto.
  - unfold union. rewrite G1, TG. destruct (last_of l (Global s)); simpl; auto. destruct (b_global p s); auto.
  - unfold union. rewrite B1. destruct (local_of l n); simpl; auto. destruct (TB n) as [E|E]; rewrite E; auto. destruct (b_bound p n); auto.
Qed.
Lemma thin_fail p g g' : thin p g -> adds g [] g' -> thin p g'.
Proof.
  intros [TG TB] [S1 G1 B1]. split; intros.
  - rewrite G1. simpl. auto.
  - rewrite B1. replace (local_of [] n) with (@None V) by now destruct n. simpl. auto.
Qed.
Lemma thin_clear p g : thin p g -> thin p (b_clear g).
Proof. intros [TG TB]. split; intros; simpl; auto. Qed.

Lemma run_app scoped l1 l2 (m : machine V) : run scoped (l1 ++ l2) m =
  match run scoped l1 m with Some (Val m') => run scoped l2 m' | r => r end.
Proof.
  revert m. induction l1 as [|o l1 IH]; intros m; simpl; auto.
  destruct (step scoped o m) as [[]|]; auto.
Qed.

Definition moved_to (c : cursor) (ps : list (range * nat)) : cursor := fold_left move_to ps c.
Lemma moved_buf ps : forall c, c_buf (moved_to c ps) = c_buf c /\ c_crlf (moved_to c ps) = c_crlf c.
Proof. induction ps as [|p ps IH]; intros c; simpl; auto. destruct (IH (move_to c p)) as [-> ->]. auto. Qed.
Lemma moved_save ps c : mkCursor (c_buf c) (c_block (moved_to c ps)) (c_eol (moved_to c ps)) (c_crlf c) = moved_to c ps.
Proof. destruct (moved_buf ps c) as [A B]. destruct (moved_to c ps); simpl in *. congruence. Qed.

(** What running a list of operations does: only the innermost context changes. *)
Definition does (scoped : bool) (l : list (op V)) (inside : bool) (ks : list (vname * V)) (ps : list (range * nat)) : Prop :=
  forall m, (inside = true -> m_guards m <> []) ->
    exists b, run scoped l m = Some (Val (set_top m (mkCtx b (moved_to (x_cur (top m)) ps)))) /\ adds (x_env (top m)) ks b.
Lemma top_set m (x : ctx V) : top (set_top m x) = x.
Proof. unfold top, set_top. destruct (m_guards m); reflexivity. Qed.
Lemma set_set m (x y : ctx V) : set_top (set_top m x) y = set_top m y.
Proof. unfold set_top. destruct (m_guards m); reflexivity. Qed.
Lemma set_top_top m : set_top m (mkCtx (x_env (top m)) (x_cur (top m))) = (m : machine V).
Proof. unfold top, set_top. destruct m as [[|g r] b t]; simpl; [destruct b|destruct g]; reflexivity. Qed.
Lemma guards_set m (x : ctx V) : m_guards m <> [] -> m_guards (set_top m x) <> [].
Proof. unfold set_top. destruct (m_guards m); [congruence|discriminate]. Qed.
Lemma does_nil scoped i : does scoped [] i [] [].
Proof.
  intros m _. exists (x_env (top m)). split; [|apply adds_refl].
  change (moved_to (x_cur (top m)) []) with (x_cur (top m)). now rewrite set_top_top.
Qed.
Lemma does_app scoped i l1 l2 k1 k2 p1 p2 : does scoped l1 i k1 p1 -> does scoped l2 i k2 p2 -> does scoped (l1 ++ l2) i (k1 ++ k2) (p1 ++ p2).
Proof.
  intros D1 D2 m G. destruct (D1 m G) as (b1 & R1 & A1). rewrite run_app, R1.
  destruct (D2 (set_top m (mkCtx b1 (moved_to (x_cur (top m)) p1)))) as (b2 & R2 & A2).
  { intros H. apply guards_set. auto. }
  rewrite R2. rewrite !top_set, set_set in *. exists b2. split.
  - unfold moved_to at 3. rewrite fold_left_app. reflexivity.
  - eapply adds_trans; eauto.
Qed.
Lemma does_flat scoped i (l : list (action V)) : (forall a, In a l -> does scoped (ops a) i (kept a) (moves a)) ->
  does scoped (flat_map ops l) i (flat_map kept l) (flat_map moves l).
Proof.
  induction l as [|a l IH]; intros H; [apply does_nil|]. simpl. apply does_app; [apply H; simpl; auto|apply IH; intros; apply H; simpl; auto].
Qed.
Lemma does_weaken scoped l i ks ps : does scoped l false ks ps -> does scoped l i ks ps.
Proof. intros D m _. apply D. discriminate. Qed.

Lemma Forall2_len {A B} (R : A -> B -> Prop) l l' : Forall2 R l l' -> length l = length l'.
Proof. induction 1; simpl; auto. Qed.
Lemma conj_all {A} (P : A -> Prop) l : fold_right and True (map P l) <-> forall x, In x l -> P x.
Proof.
  induction l as [|a l IH]; simpl; [tauto|]. rewrite IH. split.
  - intros [A1 A2] x [<-|I]; auto.
  - intros H. split; auto.
Qed.

Lemma chosen (bodies : list (list (action V) * bool)) :
  flat_map (fun bk : list (action V) * bool => if snd bk then [flat_map kept (fst bk)] else []) bodies =
  map (fun bk => flat_map kept (fst bk)) (filter snd bodies).
Proof. induction bodies as [|[l []] r IH]; simpl; auto. now rewrite IH. Qed.
(** The bodies of a choice. *)
Lemma choose_bodies scoped (bodies : list (list (action V) * bool)) :
  (forall bk, In bk bodies -> does scoped (flat_map ops (fst bk)) true (flat_map kept (fst bk)) (flat_map moves (fst bk))) ->
  (forall bk, In bk bodies -> snd bk = false -> flat_map kept (fst bk) = []) ->
  forall g r base t, thin (x_env (top (mkM r base t))) (x_env g) ->
  exists g' ts,
    run scoped (flat_map (fun bk : list (action V) * bool => flat_map ops (fst bk) ++ [if snd bk then OTake else OClear]) bodies) (mkM (g :: r) base t)
      = Some (Val (mkM (g' :: r) base (rev ts ++ t))) /\
    Forall2 (fun bk b => adds (x_env (top (mkM r base t))) (flat_map kept (fst bk)) (b_merge (x_env (top (mkM r base t))) b)) (filter snd bodies) ts.
Proof.
  induction bodies as [|[body okb] bodies IH]; intros D F g r base t TH.
  - exists g, []. split; [reflexivity|constructor].
  - pose proof (D (body, okb) (or_introl eq_refl) (mkM (g :: r) base t) ltac:(discriminate)) as (b1 & R1 & A1).
    cbn [fst snd flat_map] in *. rewrite !run_app, R1. cbn [set_top m_guards top m_base m_taken] in *.
    assert (TP : forall t', top (mkM r base t') = top (mkM r base t)) by reflexivity.
    destruct okb.
    + cbn [run step m_guards m_base m_taken x_cur x_env].
      destruct (IH (fun bk I => D bk (or_intror I)) (fun bk I => F bk (or_intror I))
                  (mkCtx (x_env (top (mkM r base t))) (moved_to (x_cur g) (flat_map moves body))) r base (b1 :: t)) as (g' & ts & R & FA).
      { simpl. apply thin_refl. }
      rewrite R. exists g', (b1 :: ts). split.
      * cbn [rev]. now rewrite <- app_assoc.
      * cbn [filter snd]. constructor; [|exact FA]. eapply thin_adds; eauto.
    + cbn [run step m_guards]. pose proof (F (body, false) (or_introl eq_refl) eq_refl) as K. cbn [fst] in K. rewrite K in A1.
      pose proof (thin_fail _ _ _ TH A1) as TH1.
      set (g1 := if scoped then mkCtx (b_clear b1) (moved_to (x_cur g) (flat_map moves body)) else mkCtx b1 (moved_to (x_cur g) (flat_map moves body))).
      destruct (IH (fun bk I => D bk (or_intror I)) (fun bk I => F bk (or_intror I)) g1 r base t) as (g' & ts & R & FA).
      { unfold g1. destruct scoped; simpl; auto. now apply thin_clear. }
      exists g', ts. split; [|exact FA]. rewrite <- R. unfold g1. cbn [x_env x_cur m_base m_taken]. destruct scoped; reflexivity.
Qed.

Lemma action_induction (P : action V -> Prop) :
  (forall n v, P (Bind n v)) -> (forall p, P (Move p)) ->
  (forall body c, (forall x, In x body -> P x) -> P (Attempt body c)) ->
  (forall bodies c, (forall bk, In bk bodies -> forall x, In x (fst bk) -> P x) -> P (Choose bodies c)) -> forall a, P a.
Proof.
  intros HB HM HA HC. fix F 1. intros [n v|p|body c|bodies c]; [apply HB|apply HM|apply HA|apply HC].
  - induction body as [|y r IHr]; intros x I; [destruct I|destruct I as [E|I]; [rewrite <- E; apply F|apply IHr; exact I]].
  - induction bodies as [|[l k] r IHr]; intros bk I; [destruct I|destruct I as [E|I]; [rewrite <- E|apply IHr; exact I]].
    cbn [fst]. clear - F. induction l as [|y l' IHl]; intros x I; [destruct I|destruct I as [E|I]; [rewrite <- E; apply F|apply IHl; exact I]].
Qed.
Lemma action_does scoped : forall (a : action V) i, proper i a -> does scoped (ops a) i (kept a) (moves a).
Proof.
  induction a as [n v|p|body commit IH|bodies choice IH] using action_induction; intros i PR.
  - intros m _. eexists. split; [reflexivity|]. apply adds_insert.
  - intros m _. eexists. split; [reflexivity|]. apply adds_refl.
  - assert (D : does scoped (flat_map ops body) true (flat_map kept body) (flat_map moves body)).
    { cbn [proper] in PR. rewrite conj_all in PR. apply does_flat. auto. }
    intros m G. cbn [ops run step].
    destruct (D (mkM (top m :: m_guards m) (m_base m) (m_taken m)) ltac:(discriminate)) as (b & R & A).
    rewrite run_app, R. cbn [set_top m_guards top m_base m_taken] in *.
    assert (TM : top (mkM (m_guards m) (m_base m) (m_taken m)) = top m) by reflexivity.
    assert (MM : mkM (m_guards m) (m_base m) (m_taken m) = m) by now destruct m.
    destruct commit.
    + cbn [run step m_guards m_base m_taken]. rewrite MM. cbn [x_env x_cur kept moves]. rewrite moved_save.
      eexists. split; [reflexivity|]. now apply adds_merge.
    + cbn [run step m_guards m_base m_taken]. rewrite MM. exists (x_env (top m)). cbn [kept moves].
      change (moved_to (x_cur (top m)) []) with (x_cur (top m)). rewrite set_top_top. split; [reflexivity|apply adds_refl].
  - cbn [proper] in PR. destruct PR as (-> & PB & CH). rewrite conj_all in PB.
    assert (D : forall bk, In bk bodies -> does scoped (flat_map ops (fst bk)) true (flat_map kept (fst bk)) (flat_map moves (fst bk))).
    { intros bk I. apply does_flat. destruct (PB bk I) as [X _]. rewrite conj_all in X. intros a A. apply (IH bk I a A). auto. }
    intros m G. specialize (G eq_refl). cbn [ops run step].
    destruct (choose_bodies scoped bodies D (fun bk I => proj2 (PB bk I)) (top m) (m_guards m) (m_base m) (m_taken m)) as (g' & ts & R & FA).
    { change (top (mkM (m_guards m) (m_base m) (m_taken m))) with (top m). apply thin_refl. }
    change (top (mkM (m_guards m) (m_base m) (m_taken m))) with (top m) in *.
    rewrite run_app, R. cbn [run step m_guards m_base m_taken].
    pose proof (Forall2_len _ _ _ FA) as LEN.
    assert (SK : forall l : list (bindings V), skipn (length (filter snd bodies)) (rev ts ++ l) = l).
    { intros l. rewrite LEN, <- rev_length, skipn_app, Nat.sub_diag, skipn_all. reflexivity. }
    destruct choice as [k|].
    + cbn [run step m_guards m_base m_taken kept moves app].
      assert (NT : exists b, nth_error (rev ts ++ m_taken m) (length (filter snd bodies) - S k) = Some b /\ nth_error ts k = Some b).
      { destruct (nth_error ts k) as [b|] eqn:N; [|apply nth_error_None in N; lia]. exists b. split; auto.
        rewrite nth_error_app1 by (rewrite rev_length; lia). rewrite LEN in *.
        pose proof (nth_error_nth' (rev ts) b (n := length ts - S k) ltac:(rewrite rev_length; lia)) as Q.
        rewrite Q. f_equal. rewrite rev_nth by lia. replace (length ts - S (length ts - S k)) with k by lia.
        now apply nth_error_nth. }
      destruct NT as (b & N1 & N2). rewrite N1.
      destruct (m_guards m) as [|g0 r] eqn:GM; [congruence|]. cbn [run step m_guards m_base m_taken].
      rewrite SK. exists (b_merge (x_env g0) b). change (moved_to (x_cur (top m)) []) with (x_cur (top m)).
      assert (T0 : top m = g0) by (unfold top; now rewrite GM). rewrite T0 in *. split.
      * unfold set_top. now rewrite GM.
      * rewrite chosen. clear - FA N2. revert k N2. induction FA as [|bk b' bks ts H FA IHf]; intros [|k] N; try discriminate.
        -- injection N as ->. exact H.
        -- simpl. now apply IHf.
    + cbn [run step m_guards m_base m_taken kept moves app]. rewrite SK.
      exists (x_env (top m)). change (moved_to (x_cur (top m)) []) with (x_cur (top m)). rewrite set_top_top.
      split; [now destruct m|apply adds_refl].
Qed.
End P.
