(** C25, C26: variables and abandoned attempts. *)
From Coq Require Import String. Open Scope string_scope.
From Verif Require Import Base Text_Model Text_Spec Cursor_Model Cursor_Spec Env_Model Env_Spec Env_Proofs.
Section P.
Context {V : Type}.

Lemma since_block_do (l : list (event V)) a : since_block (l ++ [Do a]) = since_block l ++ [Do a].
Proof.
  induction l as [|t l IH]; auto. cbn [since_block app]. rewrite existsb_app. cbn [existsb is_block orb].
  rewrite orb_false_r. destruct (existsb is_block l) eqn:E; auto. destruct (is_block t); auto.
Qed.
Lemma since_block_block (l : list (event V)) s e : since_block (l ++ [Block s e]) = [].
Proof.
  induction l as [|t l IH]; auto. cbn [since_block app]. rewrite existsb_app. cbn [existsb is_block orb].
  rewrite orb_true_r. auto.
Qed.
Lemma since_block_dos (l : list (event V)) (As : list (action V)) : since_block (l ++ map Do As) = since_block l ++ map Do As.
Proof.
  revert l. induction As as [|a As IH]; intros l; simpl; [now rewrite !app_nil_r|].
  replace (l ++ Do a :: map Do As) with ((l ++ [Do a]) ++ map Do As) by now rewrite <- app_assoc.
  rewrite IH, since_block_do, <- app_assoc. reflexivity.
Qed.

Definition view (scoped : bool) (defs : list (vname * V)) (l : list (event V)) (b : bindings V) : Prop :=
  (forall s, b_system b s = system_of defs s) /\
  (forall s, b_global b s = last_of (flat_map event_kept l) (Global s)) /\
  (forall n, b_bound b n = local_of (flat_map event_kept (if scoped then since_block l else l)) n).
Lemma view_adds scoped defs l b (As : list (action V)) b' : view scoped defs l b -> adds b (flat_map kept As) b' ->
  view scoped defs (l ++ map Do As) b'.
Proof.
  intros (S1 & G1 & B1) [S2 G2 B2].
  assert (K : flat_map event_kept (map Do As) = flat_map kept As).
  { clear. induction As as [|a As IH]; simpl; auto. now rewrite IH. }
  unfold view. splits.
  - intros s. now rewrite S2.
  - intros s. rewrite G2, G1, flat_map_app, last_of_app, K. reflexivity.
  - intros n. rewrite B2, B1. destruct scoped; [rewrite since_block_dos|]; rewrite flat_map_app, local_of_app, K; reflexivity.
Qed.
Lemma outer_view scoped defs c (l : list (event V)) : (forall a, In (Do a) l -> proper false a) ->
  exists r, run scoped (flat_map event_ops l) (start defs c) = Some r /\ r <> Err /\
    (existsb is_block l = false -> r <> Panic) /\
    forall m, r = Val m -> m_guards m = [] /\ view scoped defs l (x_env (m_base m)).
Proof.
  induction l as [|t l IH] using rev_ind; intros P.
  - eexists. split; [reflexivity|]. splits; try discriminate. intros m E. injection E as <-. split; auto.
    unfold view. splits; auto. intros []; destruct scoped; reflexivity.
  - destruct IH as (r & R & NE & NP & IH); [intros a I; apply P; apply in_or_app; auto|].
    rewrite flat_map_app, run_app, R. destruct r as [m| |]; [|congruence|].
    2:{ eexists. split; [reflexivity|]. splits; try discriminate. rewrite existsb_app. intros E. apply orb_false_iff in E as [E _]. auto. }
    destruct (IH m eq_refl) as (GM & VW). destruct t as [a|s e]; cbn [flat_map event_ops app].
    + rewrite app_nil_r. destruct (action_does scoped a false (P a ltac:(apply in_or_app; simpl; auto)) m ltac:(discriminate)) as (b & RA & AD).
      rewrite RA. eexists. split; [reflexivity|]. splits; try discriminate. intros m' E. injection E as <-.
      unfold top, set_top in *. rewrite GM in *. simpl. split; auto.
      apply (view_adds scoped defs l (x_env (m_base m)) [a]); auto. simpl. now rewrite app_nil_r.
    + cbn [run step]. rewrite GM. destruct (set_bounds (x_cur (m_base m)) s e) as [c'| |] eqn:SB.
      * cbn [bind]. eexists. split; [reflexivity|]. splits; try discriminate. intros m' E. injection E as <-. simpl. split; auto.
        destruct VW as (V1 & V2 & V3). destruct scoped.
        -- unfold view. splits; auto.
           ++ intros x. simpl. now rewrite flat_map_app, app_nil_r.
           ++ intros n. rewrite since_block_block. destruct n; reflexivity.
        -- unfold view. splits; auto.
           ++ intros x. simpl. now rewrite flat_map_app, app_nil_r.
           ++ intros n. rewrite flat_map_app, app_nil_r. apply V3.
      * exfalso. revert SB. unfold set_bounds, bounds_of, next_newline_from, next_newline_in_range, bounds_of.
        repeat match goal with |- context [match ?x with _ => _ end] => destruct x; cbn [bind]; try discriminate end;
        unfold unwrap; repeat match goal with |- context [match ?x with _ => _ end] => destruct x; cbn [bind]; try discriminate end.
      * cbn [bind]. eexists. split; [reflexivity|]. splits; try discriminate.
        rewrite existsb_app. simpl. rewrite orb_true_r. discriminate.
Qed.
Lemma view_expected scoped defs (l : list (event V)) b n : view scoped defs l b -> (forall s, n <> Pseudo s) ->
  exists v, b_get b n = Val v /\ expected scoped defs l n v.
Proof.
  intros (V1 & V2 & V3) NP. destruct n as [s|s|s]; [exfalso; eapply NP; eauto| |]; eexists; (split; [reflexivity|]).
  - exists (last_of (flat_map event_kept l) (Global s)), (system_of defs s). splits.
    + apply last_of_bound.
    + apply system_defined.
    + rewrite V1, V2. reflexivity.
  - exists (last_of (flat_map event_kept (if scoped then since_block l else l)) (User s)), (system_of defs s). splits.
    + apply last_of_bound.
    + apply system_defined.
    + rewrite V1, V3. reflexivity.
Qed.

(** C25.  At any point of any run, also inside attempts that are still open, the value of a variable
    is the one bound last: among the bindings that still count, made since the last block was entered
    for a local variable under --enable-var-scope; otherwise the one of the last -D option with that
    name.  No run is interrupted by the bookkeeping of variables; only entering a block with an
    invalid range aborts. *)
Theorem C25_lookup scoped defs c (outer : list (event V)) (nested : list (list (action V))) : proper_run outer nested ->
  exists r, run scoped (open_ops outer nested) (start defs c) = Some r /\ r <> Err /\
    (existsb is_block outer = false -> r <> Panic) /\
    forall m, r = Val m -> forall n, (forall s, n <> Pseudo s) ->
      exists v, b_get (x_env (top m)) n = Val v /\ expected scoped defs (events outer nested) n v /\
        (* the lookups of expressions agree *)
        match n with
        | User s => b_get_local (x_env (top m)) s = v
        | Global s => b_get_global (x_env (top m)) s = v
        | Pseudo _ => True
        end.
Proof.
  intros [P1 P2]. unfold open_ops, events.
  destruct (outer_view scoped defs c outer P1) as (r & R & NE & NP & VW). rewrite run_app, R.
  destruct r as [m| |]; [|congruence|].
  2:{ eexists. split; [reflexivity|]. splits; auto; discriminate. }
  clear R NE NP P1. destruct (VW m eq_refl) as (GM & V0). clear VW.
  assert (VT : view scoped defs outer (x_env (top m))) by (unfold top; rewrite GM; auto). clear GM V0.
  assert (X : exists m', run scoped (flat_map (fun l => OProtect :: flat_map ops l) nested) m = Some (Val m') /\
     view scoped defs (outer ++ map Do (concat nested)) (x_env (top m'))).
  { revert m outer VT. induction nested as [|l nested IH]; intros m outer VT.
    - exists m. split; auto. simpl. now rewrite app_nil_r.
    - cbn [flat_map concat]. change ((OProtect :: flat_map ops l) ++ flat_map (fun l => OProtect :: flat_map ops l) nested)
        with (OProtect :: (flat_map ops l ++ flat_map (fun l => OProtect :: flat_map ops l) nested)).
      cbn [run step]. rewrite run_app.
      destruct (does_flat scoped true l (fun a A => action_does scoped a true (P2 l a (or_introl eq_refl) A))
                  (mkM (top m :: m_guards m) (m_base m) (m_taken m)) ltac:(discriminate)) as (b & R & A).
      rewrite R. cbn [top set_top m_guards m_base m_taken] in *.
      destruct (IH (fun l' a I => P2 l' a (or_intror I)) (mkM (mkCtx b (moved_to (x_cur (top m)) (flat_map moves l)) :: m_guards m) (m_base m) (m_taken m)) (outer ++ map Do l)) as (m' & R' & V').
      { cbn [top m_guards x_env]. eapply view_adds; eauto. }
      exists m'. rewrite map_app. split; auto. now rewrite app_assoc. }
  destruct X as (m' & R & VV). eexists. split; [exact R|]. splits; try discriminate.
  intros m0 E. injection E as <-. intros n NP. destruct (view_expected _ _ _ _ n VV NP) as (v & B & X). exists v. splits; auto.
  destruct n as [x|x|x]; auto; now injection B.
Qed.

(** C26.  An attempt that is abandoned, or a choice where nothing was chosen, leaves everything
    exactly as it was: bindings, cursor, and the contexts and attempts around it. *)
Theorem C26_abandoned scoped (m : machine V) (body : list (action V)) : (forall a, In a body -> proper true a) ->
  run scoped (ops (Attempt body false)) m = Some (Val m).
Proof.
  intros P. assert (PR : proper false (Attempt body false)) by (cbn [proper]; now apply conj_all).
  cbn [ops run step].
  destruct (does_flat scoped true body (fun a A => action_does scoped a true (P a A))
    (mkM (top m :: m_guards m) (m_base m) (m_taken m)) ltac:(discriminate)) as (b & R & _).
  rewrite run_app, R. now destruct m.
Qed.
Theorem C26_not_chosen scoped (m : machine V) bodies : proper true (Choose bodies None) ->
  run scoped (ops (Choose bodies None)) m = Some (Val m).
Proof.
  intros (_ & P & _). rewrite conj_all in P. cbn [ops run step].
  destruct (choose_bodies scoped bodies) with (g := top m) (r := m_guards m) (base := m_base m) (t := m_taken m) as (g' & ts & R & FA).
  - intros bk I. apply does_flat. destruct (P bk I) as [X _]. rewrite conj_all in X. intros a A. apply action_does; auto.
  - intros bk I. apply (P bk I).
  - change (top (mkM (m_guards m) (m_base m) (m_taken m))) with (top m). apply thin_refl.
  - rewrite run_app, R. cbn [app run step m_guards m_base m_taken].
    rewrite (Forall2_len _ _ _ FA), <- rev_length, skipn_app, Nat.sub_diag, skipn_all. now destruct m.
Qed.
Lemma adds_same (b : bindings V) l b1 b2 c : adds b l b1 -> adds b l b2 -> same_ctx (mkCtx b1 c) (mkCtx b2 c).
Proof.
  intros [S1 G1 B1] [S2 G2 B2]. unfold same_ctx. splits; auto.
  - intros [s|s|s]; unfold b_get; cbn [x_env]; rewrite ?S1, ?S2, ?G1, ?G2, ?B1, ?B2; reflexivity.
  - intros s. unfold b_get_local, b_get_global. cbn [x_env]. now rewrite S1, S2, G1, G2, B1, B2.
Qed.
(** A committed attempt cannot be told apart from doing the same without it. *)
Theorem C26_committed scoped (m : machine V) (body : list (action V)) : m_guards m <> [] -> (forall a, In a body -> proper true a) ->
  exists m1 m2, run scoped (ops (Attempt body true)) m = Some (Val m1) /\ run scoped (flat_map ops body) m = Some (Val m2) /\
    same_machine m1 m2.
Proof.
  intros G P. assert (PR : proper false (Attempt body true)) by (cbn [proper]; now apply conj_all).
  destruct (action_does scoped _ false PR m ltac:(discriminate)) as (b1 & R1 & A1).
  destruct (does_flat scoped true body (fun a A => action_does scoped a true (P a A)) m (fun _ => G)) as (b2 & R2 & A2).
  eexists _, _. split; [exact R1|]. split; [exact R2|]. cbn [kept moves] in *.
  assert (RF : forall x : ctx V, same_ctx x x) by (intros x; unfold same_ctx; splits; auto).
  unfold same_machine, set_top. destruct (m_guards m) as [|g r]; [congruence|]. simpl. split; auto.
  constructor; [eapply adds_same; eauto|]. clear - RF. induction r; constructor; auto.
Qed.
End P.
(** Clearing is what the DAG search does after a pattern failed (visitors/dynamic.rs:154).  Under
    --enable-var-scope it makes the remaining patterns of the group forget the variables bound
    before. *)
Theorem C26_failed_pattern_forgets_refuted : exists m : machine N,
  run true [OBind (User "X") 1%N; OProtect; OProtect; OProtect; ODrop; OClear] (start [] (mkCursor [] (mkRange 0 0) 0 false)) = Some (Val m) /\
  b_get (x_env (m_base m)) (User "X") = Val (Some 1%N) /\ b_get (x_env (top m)) (User "X") = Val None.
Proof. eexists. split; [reflexivity|]. split; reflexivity. Qed.
(** -D variables are visible both as locals and as globals. *)
Definition history : list (event N) :=
  [Do (Bind (User "X") 1%N); Do (Bind (Global "G") 2%N); Block (Included 0) (Excluded 0);
   Do (Attempt [Bind (User "Y") 3%N; Attempt [Bind (Global "G") 4%N] true] true);
   Do (Attempt [Bind (User "Y") 5%N] false)].
Definition after (scoped : bool) (n : vname) : option (res (option N)) :=
  match run scoped (open_ops history [[Choose [([Bind (User "Z") 6%N], true); ([], false); ([Bind (User "Z") 7%N], true)] (Some 1)]])
          (start [(User "D", 9%N); (Global "X", 8%N)] (mkCursor [] (mkRange 0 0) 0 false)) with
  | Some (Val m) => Some (b_get (x_env (top m)) n)
  | _ => None
  end.
Example C25_ex :
  proper_run history [[Choose [([Bind (User "Z") 6%N], true); ([], false); ([Bind (User "Z") 7%N], true)] (Some 1)]] /\
  map (after false) [User "X"; Global "G"; User "Y"; User "Z"; User "D"; Global "D"; Global "X"] =
    map (fun v => Some (Val (Some v))) [1; 4; 3; 7; 9; 9; 8]%N /\
  after true (User "X") = Some (Val (Some 8%N)) /\ after true (Global "G") = Some (Val (Some 4%N)).
Proof.
  split; [|vm_compute; auto]. split.
  - intros a I. unfold history in I. simpl in I. repeat destruct I as [I|I]; try discriminate; try contradiction; injection I as <-; simpl; auto.
  - intros l a [<-|[]] [<-|[]]. simpl. repeat split; auto; discriminate.
Qed.
Print Assumptions C25_lookup.
Print Assumptions C26_abandoned.
Print Assumptions C26_not_chosen.
Print Assumptions C26_committed.
