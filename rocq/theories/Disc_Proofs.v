(** Proofs about test discovery. *)
From Coq Require Import String.
From Verif Require Import Base Text_Model Cursor_Model Map_Model Tree_Model Tree_Spec Tree_Proofs Tree_Props Config_Model Disc_Model Disc_Spec.
Notation length := List.length.
Ltac splits := repeat match goal with |- _ /\ _ => split end.

(** ** Paths *)
Lemma dpath_eqb_eq a : forall b, dpath_eqb a b = true <-> a = b.
Proof.
  induction a as [|x a IH]; intros [|y b]; cbn; split; try easy.
  - intros H. apply andb_prop in H as [H1 H2]. apply str_eqb_eq in H1. apply IH in H2. congruence.
  - intros [= -> ->]. rewrite str_eqb_refl. now apply IH.
Qed.
Lemma dpath_eqb_refl a : dpath_eqb a a = true.
Proof. now apply dpath_eqb_eq. Qed.
Lemma dpath_eqb_neq a b : dpath_eqb a b = false <-> a <> b.
Proof. rewrite <- dpath_eqb_eq. destruct (dpath_eqb a b); split; congruence. Qed.
Lemma dstrip_spec pre : forall p r, dstrip pre p = Some r <-> p = pre ++ r.
Proof.
  induction pre as [|x pre IH]; intros [|y p] r; cbn; split; try easy; try (now intros [= ->]).
  - destruct (str_eqb x y) eqn:E; [|easy]. apply str_eqb_eq in E. subst. intros H. apply IH in H. now subst.
  - intros [= -> ->]. rewrite str_eqb_refl. now apply IH.
Qed.
Lemma dstrip_app pre r : dstrip pre (pre ++ r) = Some r.
Proof. now apply dstrip_spec. Qed.
Lemma starts_with_spec p pre : starts_with p pre = true <-> exists r, p = pre ++ r.
Proof.
  unfold starts_with. destruct (dstrip pre p) as [r|] eqn:E; split; try easy.
  - intros _. apply dstrip_spec in E. eauto.
  - intros (r & ->). now rewrite dstrip_app in E.
Qed.
Lemma at_app p : forall e q, at_ e (p ++ q) = match at_ e p with Some e' => at_ e' q | None => None end.
Proof. induction p as [|x p IH]; intros e q; cbn; auto. destruct e as [|l]; auto. destruct (lookup x l); auto. Qed.

(** ** The file system *)
Lemma entry_ind' (P : entry -> Prop) : P EFile -> (forall l, Forall (fun x => P (snd x)) l -> P (EDir l)) -> forall e, P e.
Proof.
  intros H1 H2. fix IH 1. intros [|l]; [exact H1|]. apply H2. induction l as [|[x e] l IHl]; constructor; [apply IH|exact IHl].
Qed.
Lemma lookup_In {V} x (l : list (str * V)) e : NoDup (map fst l) -> In (x, e) l <-> lookup x l = Some e.
Proof.
  induction l as [|[y v] l IH]; intros N; cbn; [easy|]. cbn in N. inversion_clear N as [|? ? N1 N2]. destruct (str_eqb y x) eqn:E.
  - apply str_eqb_eq in E. subst. split; [|now intros [= ->]; left]. intros [[= ->]|I]; auto. exfalso. apply N1. apply in_map_iff. now exists (x, e).
  - apply str_eqb_neq in E. rewrite <- IH by auto. split; auto. intros [[= -> ->]|I]; auto. easy.
Qed.
Lemma tidy_at e : tidy e -> forall p e', at_ e p = Some e' -> tidy e'.
Proof.
  intros T p. revert e T. induction p as [|x p IH]; intros e T e' H; cbn in H; [now injection H as <-|]. destruct e as [|l]; [easy|].
  destruct (lookup x l) as [e1|] eqn:E; [|easy]. inversion T as [|? N F]; subst. apply (IH e1); auto. rewrite Forall_forall in F. apply (F (x, e1)). now apply lookup_In.
Qed.
Lemma height_child x l e : In (x, e) l -> height e < height (EDir l).
Proof.
  cbn. induction l as [|[y e'] l IH]; cbn; [easy|]. intros [[= -> ->]|I]; [lia|]. apply IH in I. lia.
Qed.
Lemma lookup_in_pair {V} x (l : list (str * V)) e : lookup x l = Some e -> In (x, e) l.
Proof. induction l as [|[y v] l IH]; cbn; [easy|]. destruct (str_eqb y x) eqn:E; auto. apply str_eqb_eq in E. subst. intros [= ->]. now left. Qed.
Lemma height_at p : forall e e', at_ e p = Some e' -> p <> [] -> height e' < height e.
Proof.
  induction p as [|x p IH]; intros e e' H P; [easy|]. cbn in H. destruct e as [|l]; [easy|]. destruct (lookup x l) as [e1|] eqn:E; [|easy].
  apply lookup_in_pair, height_child in E. destruct p as [|y p]; [cbn in H; now injection H as <-|]. apply IH in H; [lia|easy].
Qed.

Section W.
Context (w : world).
Notation at_w := (at_ (w_root w)).
Hypothesis T : tidy (w_root w).

Lemma at_child p l x e : at_w p = Some (EDir l) -> In (x, e) l -> at_w (p ++ [x]) = Some e.
Proof.
  intros A I. rewrite at_app, A. cbn. pose proof (tidy_at _ T _ _ A) as TD. inversion TD; subst. apply lookup_In in I; auto. now rewrite I.
Qed.
Lemma suite_dir_lookup d l : at_w d = Some (EDir l) -> suite_dir w d <-> lookup SUITE l <> None.
Proof.
  intros A. unfold suite_dir. rewrite A. split; [intros (l' & e & [= ->] & H); congruence|]. intros H. destruct (lookup SUITE l) as [e|] eqn:E; [|easy]. eauto.
Qed.

(** ** The traversal *)
Section Walk.
Context (s : dpath) (su : suite) (c : config).
Definition opens (q : dpath) : Prop := q = s \/ q = su_source su \/ ~ suite_dir w q.
Lemma walk_dir p l : walk w s su c p (EDir l) =
  if dpath_eqb p s || dpath_eqb p (su_source su) || match lookup SUITE l with Some _ => false | None => true end
  then (flat_map (fun x => fst (walk w s su c (p ++ [fst x]) (snd x))) l, flat_map (fun x => snd (walk w s su c (p ++ [fst x]) (snd x))) l)
  else ([], [p]).
Proof.
  cbn [walk]. match goal with |- context [if ?b then _ else _] => destruct b end; auto.
  induction l as [|[x e] l IH]; auto. rewrite IH. cbn. now destruct (walk w s su c (p ++ [x]) e).
Qed.
Lemma opens_cond p l : at_w p = Some (EDir l) ->
  dpath_eqb p s || dpath_eqb p (su_source su) || match lookup SUITE l with Some _ => false | None => true end = true <-> opens p.
Proof.
  intros A. unfold opens. rewrite !orb_true_iff, !dpath_eqb_eq. rewrite (suite_dir_lookup p l A).
  assert (X : match lookup SUITE l with Some _ => false | None => true end = true <-> ~ lookup SUITE l <> None)
    by (destruct (lookup SUITE l); split; intros H; try easy; exfalso; apply H; easy).
  rewrite X. tauto.
Qed.
(** all directories from [p] to the last but one of [p ++ r] are entered *)
Definition entered (p r : dpath) : Prop := forall a b, r = a ++ b -> b <> [] -> opens (p ++ a).
Lemma entered_nil p : entered p [].
Proof. intros a b E B. symmetry in E. apply app_eq_nil in E. easy. Qed.
Lemma entered_cons p x r : entered p (x :: r) <-> opens p /\ entered (p ++ [x]) r.
Proof.
  split.
  - intros H. split; [rewrite <- (app_nil_r p); now apply (H [] (x :: r))|]. intros a b -> B. rewrite <- app_assoc. apply (H (x :: a) b); auto.
  - intros [H1 H2] a b E B. destruct a as [|y a]; [now rewrite app_nil_r|]. injection E as <- ->. replace (p ++ x :: a) with ((p ++ [x]) ++ a) by now rewrite <- app_assoc. now apply (H2 a b).
Qed.

Lemma walk_files e : forall p, at_w p = Some e -> forall f,
  In f (fst (walk w s su c p e)) <-> exists r, f = p ++ r /\ at_ e r = Some EFile /\ is_test w f su c = true /\ entered p r.
Proof.
  induction e as [|l IH] using entry_ind'; intros p A f.
  - cbn [walk]. split.
    + destruct (is_test w p su c) eqn:E; cbn; [|easy]. intros [<-|[]]. exists []. rewrite app_nil_r. splits; auto. apply entered_nil.
    + intros ([|x r] & -> & H & HT & _); [|easy]. rewrite app_nil_r in *. rewrite HT. now left.
  - rewrite walk_dir. destruct (_ || _) eqn:C.
    + apply (opens_cond p l A) in C. cbn [fst]. rewrite in_flat_map. split.
      * intros ((x & e) & I & J). cbn in J. rewrite Forall_forall in IH. apply (IH (x, e) I) in J; [|now apply (at_child p l)]. destruct J as (r & -> & J1 & J2 & J3). exists (x :: r).
        rewrite <- app_assoc in *. cbn [app] in *. splits; auto; [|now apply entered_cons]. cbn. pose proof (tidy_at _ T _ _ A) as TD. inversion TD; subst. apply lookup_In in I; auto. now rewrite I.
      * intros ([|x r] & -> & H & HT & HE); [easy|]. cbn in H. destruct (lookup x l) as [e|] eqn:E; [|easy]. apply lookup_in_pair in E. exists (x, e). split; auto. cbn.
        rewrite Forall_forall in IH. apply (IH (x, e) E); [now apply (at_child p l)|]. exists r. rewrite <- app_assoc. apply entered_cons in HE as [_ HE]. auto.
    + cbn. split; [easy|]. intros (r & -> & H & _ & HE). destruct r as [|x r]; [easy|]. apply entered_cons in HE as [HO _]. apply (opens_cond p l A) in HO. congruence.
Qed.
Lemma walk_nested e : forall p, at_w p = Some e -> forall d,
  In d (snd (walk w s su c p e)) <-> exists r, d = p ++ r /\ suite_dir w d /\ d <> s /\ d <> su_source su /\ entered p r.
Proof.
  assert (NF : forall p r, at_w p = Some EFile -> suite_dir w (p ++ r) -> False).
  { intros p r A (l & e' & H & _). rewrite at_app, A in H. now destruct r. }
  induction e as [|l IH] using entry_ind'; intros p A d.
  - cbn [walk]. split; [destruct (is_test w p su c); cbn; easy|]. intros (r & -> & H & _). exfalso. eauto.
  - rewrite walk_dir. destruct (_ || _) eqn:C.
    + apply (opens_cond p l A) in C. cbn [snd]. rewrite in_flat_map. split.
      * intros ((x & e) & I & J). cbn in J. rewrite Forall_forall in IH. apply (IH (x, e) I) in J; [|now apply (at_child p l)]. destruct J as (r & -> & J1 & J2 & J3 & J4). exists (x :: r).
        rewrite <- app_assoc in *. cbn [app] in *. splits; auto. now apply entered_cons.
      * intros ([|x r] & -> & H & H1 & H2 & HE).
        { exfalso. rewrite app_nil_r in *. destruct C as [C|[C|C]]; auto. }
        pose proof H as (l2 & e2 & B & _). rewrite at_app, A in B. cbn in B. destruct (lookup x l) as [e|] eqn:E; [|easy]. apply lookup_in_pair in E. exists (x, e). split; auto. cbn.
        rewrite Forall_forall in IH. apply (IH (x, e) E); [now apply (at_child p l)|]. exists r. rewrite <- app_assoc. apply entered_cons in HE as [_ HE]. auto.
    + cbn. split.
      * intros [<-|[]]. exists []. rewrite app_nil_r. assert (NO : ~ opens p) by (intros O; apply (opens_cond p l A) in O; congruence).
        unfold opens in NO. splits; auto; [|apply entered_nil]. apply (suite_dir_lookup p l A). intros H. apply NO. right. right. rewrite (suite_dir_lookup p l A). congruence.
      * intros (r & -> & H & _ & _ & HE). destruct r as [|x r]; [left; now rewrite app_nil_r|]. apply entered_cons in HE as [HO _]. apply (opens_cond p l A) in HO. congruence.
Qed.
Lemma NoDup_flat_map {A B} (f : A -> list B) l : NoDup l -> (forall x, In x l -> NoDup (f x)) ->
  (forall x y b, In x l -> In y l -> In b (f x) -> In b (f y) -> x = y) -> NoDup (flat_map f l).
Proof.
  intros N. induction N as [|x l NI N IH]; intros H1 H2; cbn; [constructor|].
  assert (NA : forall l1 l2 : list B, NoDup l1 -> NoDup l2 -> (forall b, In b l1 -> ~ In b l2) -> NoDup (l1 ++ l2)).
  { induction l1 as [|b l1 IH1]; intros l2 X1 X2 X3; auto. inversion_clear X1. cbn. constructor.
    - intros I. apply in_app_iff in I as [I|I]; auto. apply (X3 b); auto. now left.
    - apply IH1; auto. intros b' I. apply X3. now right. }
  apply NA.
  - apply H1. now left.
  - apply IH; [intros y I; apply H1; now right|]. intros a b' z I J. apply H2; now right.
  - intros b I J. apply in_flat_map in J as (y & Y & J). assert (x = y) by (apply (H2 x y b); auto; [now left|now right]). now subst.
Qed.
Lemma walk_nodup e : forall p, at_w p = Some e -> NoDup (fst (walk w s su c p e)) /\ NoDup (snd (walk w s su c p e)).
Proof.
  induction e as [|l IH] using entry_ind'; intros p A.
  - cbn [walk]. destruct (is_test w p su c); cbn; split; constructor; auto; constructor.
  - rewrite walk_dir. destruct (_ || _) eqn:C; cbn [fst snd]; [|split; [constructor|constructor; [easy|constructor]]].
    pose proof (tidy_at _ T _ _ A) as TD. inversion TD as [|? N F]; subst. rewrite Forall_forall in IH.
    assert (NL : NoDup l) by (eapply NoDup_map_inv; eauto).
    assert (SAME : forall x y d, In x l -> In y l -> (exists r, d = (p ++ [fst x]) ++ r) -> (exists r, d = (p ++ [fst y]) ++ r) -> x = y).
    { intros [x ex] [y ey] d X Y (r1 & ->) (r2 & E). cbn in E. rewrite <- !app_assoc in E. apply app_inv_head in E. injection E as <- _. apply lookup_In in X, Y; auto. congruence. }
    split; apply NoDup_flat_map; auto.
    + intros x X. apply (IH x X). destruct x as [x e]. now apply (at_child p l).
    + intros [x ex] [y ey] b X Y B1 B2. cbn in B1, B2. apply (SAME _ _ b X Y); cbn.
      * apply walk_files in B1; [|now apply (at_child p l)]. destruct B1 as (r & -> & _). eauto.
      * apply walk_files in B2; [|now apply (at_child p l)]. destruct B2 as (r & -> & _). eauto.
    + intros x X. apply (IH x X). destruct x as [x e]. now apply (at_child p l).
    + intros [x ex] [y ey] b X Y B1 B2. cbn in B1, B2. apply (SAME _ _ b X Y); cbn.
      * apply walk_nested in B1; [|now apply (at_child p l)]. destruct B1 as (r & -> & _). eauto.
      * apply walk_nested in B2; [|now apply (at_child p l)]. destruct B2 as (r & -> & _). eauto.
Qed.
End Walk.

(** ** The index of paths *)
Section Cache.
Context {V : Type}.
Implicit Types (h : list (ins V)) (t : ptree V).
Hypothesis RD : is_dir w [] = true.
(** the paths inserted are those of files and directories *)
Definition consistent h : Prop := forall i, In i h -> exists d, fst (fst i) = abs d /\ snd (fst i) = path_type w d /\ at_w d <> None.
Definition cached h t : Prop := run h = (h, t) /\ consistent h.
Lemma names_abs d : names (abs d) = d.
Proof. cbn. induction d as [|x d IH]; cbn; congruence. Qed.
Lemma abs_inj d d' : abs d = abs d' -> d = d'.
Proof. intros E. rewrite <- (names_abs d), E. apply names_abs. Qed.
Lemma abs_valid d : valid (abs d).
Proof. split; [easy|]. cbn. intros I. apply in_map_iff in I as (x & X & _). easy. Qed.
Lemma below_abs d d' : below (abs d) (abs d') -> exists x, x <> [] /\ d' = d ++ x.
Proof.
  intros (r & R & E). cbn in E. injection E as E. revert d' E. induction d as [|x d IH]; intros d' E; cbn in E.
  - destruct d'; [cbn in E; now subst|]. eexists. split; [|reflexivity]. easy.
  - destruct d' as [|y d']; [easy|]. cbn in E. injection E as -> E. destruct (IH d' E) as (z & Z & ->). now exists z.
Qed.
Lemma type_known d : at_w d <> None -> path_type w d <> Unknown.
Proof. unfold path_type, is_dir, is_file. intros H. destruct (at_w d) as [[|l]|]; easy. Qed.
Lemma type_above d x : at_w (d ++ x) <> None -> x <> [] -> path_type w d = Dir.
Proof. unfold path_type, is_dir. rewrite at_app. intros H X. destruct (at_w d) as [[|l]|]; [now destruct x| |]; easy. Qed.
Lemma consistent_ok h : consistent h -> well_formed h /\ settled h.
Proof.
  intros C.
  assert (A : forall p ty, inserted_as h p ty -> exists d, p = abs d /\ ty = path_type w d /\ at_w d <> None).
  { intros p ty I. apply in_map_iff in I as ([[p' ty'] v] & [= -> ->] & I). apply C in I. exact I. }
  split; [|unfold settled; splits].
  - intros p ty I. apply A in I as (d & -> & -> & E). split; [apply abs_valid|]. destruct d; [|easy]. intros _. unfold path_type. now rewrite RD.
  - intros p ty I. apply A in I as (d & -> & -> & E). now apply type_known.
  - intros p I1 I2. apply A in I1 as (d & -> & E1 & _), I2 as (d' & E & E2 & _). apply abs_inj in E. congruence.
  - intros p q I1 I2 B. apply A in I1 as (d & -> & E1 & _). assert (I2' : exists ty, inserted_as h p ty).
    { apply in_map_iff in I2 as ([[p' ty] v] & <- & I). exists ty. apply in_map_iff. now exists (p', ty, v). }
    destruct I2' as (ty & I3). apply A in I3 as (d' & -> & _ & E'). apply below_abs in B as (x & X & ->). rewrite (type_above d x E' X) in E1. easy.
Qed.
Lemma run_from_app h1 : forall t h2, run_from t (h1 ++ h2) =
  let '(ok1, t1) := run_from t h1 in let '(ok2, t2) := run_from t1 h2 in (ok1 ++ ok2, t2).
Proof.
  induction h1 as [|i h1 IH]; intros t h2; cbn; [now destruct (run_from t h2)|]. destruct (try_insert t _ _ _) as [t' e]. rewrite IH.
  destruct (run_from t' h1) as [ok1 t1]. destruct (run_from t1 h2) as [ok2 t2]. now destruct e.
Qed.
Lemma cached_nil : cached [] new_tree.
Proof. split; [reflexivity|easy]. Qed.
Lemma cached_insert h t d v : cached h t -> at_w d <> None ->
  exists t', insert_or_panic t d (path_type w d) v = Val t' /\ cached (h ++ [(abs d, path_type w d, v)]) t'.
Proof.
  intros [R C] E. assert (C' : consistent (h ++ [(abs d, path_type w d, v)])).
  { intros i I. apply in_app_iff in I as [I|[<-|[]]]; auto. exists d. auto. }
  destruct (consistent_ok _ C') as [W S]. pose proof R as R'. unfold run in R'. destruct (run (h ++ [(abs d, path_type w d, v)])) as [ok t'] eqn:RR. pose proof RR as RR'.
  unfold run in RR. rewrite run_from_app, R' in RR. cbn in RR. unfold insert_or_panic. destruct (try_insert t (abs d) (path_type w d) v) as [t1 [err|]] eqn:TI; injection RR as E1 E2.
  - exfalso. destruct (C40_settled_partial _ _ _ W S RR') as [E3 _]. rewrite E3, app_nil_r in E1. apply (f_equal (@List.length _)) in E1. rewrite app_length in E1. cbn in E1. lia.
  - subst t1. exists t'. split; auto. split; auto. rewrite RR'. f_equal. symmetry. exact E1.
Qed.
Lemma cached_get h t d : cached h t -> cache_get t d = Val (last_value h (abs d)).
Proof.
  intros [R C]. destruct (consistent_ok _ C) as [W S]. unfold cache_get. destruct (C40_settled_partial _ _ _ W S R) as [_ H]. destruct (H (abs d)) as [E _]; [easy|]. now rewrite E.
Qed.
Lemma cached_nearest h t d : cached h t -> at_w d <> None -> exists o, cache_nearest t d = Val o /\
  match o with
  | Some (q, v) => (exists x, x <> [] /\ d = q ++ x) /\ last_value h (abs q) = Some v /\ forall q' x, d = q' ++ x -> x <> [] -> inserted h (abs q') -> exists y, q = q' ++ y
  | None => forall q' x, d = q' ++ x -> x <> [] -> ~ inserted h (abs q')
  end.
Proof.
  intros [R C] E. destruct (consistent_ok _ C) as [W S]. pose proof (C41_nearest_partial h h t (abs d) W R (abs_valid d)) as N.
  destruct N as (o & E1 & N).
  { intros q I B. apply in_map_iff in I as ([[q' ty] v] & EQ & I). cbn in EQ. subst q'. pose proof (C _ I) as (d' & E1 & E2 & _). cbn in E1, E2. subst q ty. apply below_abs in B as (x & X & ->). rewrite (type_above d' x E X) in I. apply in_map_iff. now exists (abs d', Dir, v). }
  unfold cache_nearest. rewrite E1. assert (BA : forall q' x, x <> [] -> below (abs q') (abs (q' ++ x))).
  { intros q' x X. exists (map Name x). split; [now destruct x|]. unfold abs. cbn. now rewrite map_app. }
  destruct o as [[q v]|].
  - destruct N as (B & L & M). assert (Q : exists d', q = abs d').
    { assert (I : inserted h q). { clear - L. unfold last_value, inserted in *. enough (forall acc, fold_left (fun acc i => if path_eqb (fst (fst i)) q then Some (snd i) else acc) h acc = Some v -> acc = Some v \/ In q (map (fun i => fst (fst i)) h)) as X by (destruct (X None L); easy).
        clear L. induction h as [|i h IH]; intros acc H; auto. cbn in *. apply IH in H as [H|H]; auto. destruct (path_eqb (fst (fst i)) q) eqn:E; auto. apply path_eqb_eq in E. auto. }
      apply in_map_iff in I as (i & <- & I). apply C in I as (d' & E2 & _). eauto. }
    destruct Q as (d' & ->). exists (Some (d', v)). rewrite names_abs. split; auto. splits; auto.
    + apply below_abs in B as (x & X & ->). eauto.
    + intros q' x -> X I. destruct (M (abs q') I (BA q' x X)) as [H|H]; [apply abs_inj in H; subst; exists []; now rewrite app_nil_r|]. apply below_abs in H as (y & _ & ->). eauto.
  - exists None. split; auto. intros q' x -> X I. apply (N (abs q') I). now apply BA.
Qed.
End Cache.

(** ** Maps by path *)
Lemma dget_dput {A} k (v : A) m q : dget q (dput k v m) = if dpath_eqb k q then Some v else dget q m.
Proof.
  induction m as [|[k' v'] m IH]; cbn; auto. destruct (dpath_eqb k' k) eqn:E; cbn.
  - apply dpath_eqb_eq in E. subst. destruct (dpath_eqb k q); auto.
  - rewrite IH. destruct (dpath_eqb k' q) eqn:E1, (dpath_eqb k q) eqn:E2; auto. apply dpath_eqb_eq in E1, E2. subst. now rewrite dpath_eqb_refl in E.
Qed.
Lemma keys_dput {A} k (v : A) m : NoDup (map fst m) -> NoDup (map fst (dput k v m)) /\ (forall q, In q (map fst (dput k v m)) <-> In q (map fst m) \/ q = k).
Proof.
  induction m as [|[k' v'] m IH]; intros N; cbn.
  - split; [repeat constructor; auto|]. intros q. intuition auto.
  - cbn in N. inversion_clear N as [|? ? N1 N2]. destruct (dpath_eqb k' k) eqn:E.
    + apply dpath_eqb_eq in E. subst. cbn. split; [now constructor|]. intros q. intuition auto.
    + apply dpath_eqb_neq in E. destruct (IH N2) as [I1 I2]. cbn. split.
      * constructor; auto. rewrite I2. intros [X|X]; auto.
      * intros q. rewrite I2. tauto.
Qed.
Lemma dget_In {A} k (m : list (dpath * A)) v : NoDup (map fst m) -> dget k m = Some v <-> In (k, v) m.
Proof.
  induction m as [|[k' v'] m IH]; intros N; cbn; [easy|]. cbn in N. inversion_clear N as [|? ? N1 N2]. destruct (dpath_eqb k' k) eqn:E.
  - apply dpath_eqb_eq in E. subst. split; [intros [= ->]; now left|]. intros [[= ->]|I]; auto. exfalso. apply N1. apply in_map_iff. now exists (k, v).
  - apply dpath_eqb_neq in E. rewrite IH by auto. split; auto. intros [[= -> ->]|I]; auto. easy.
Qed.
Lemma dget_app {A} k (m m' : list (dpath * A)) : dget k (m ++ m') = match dget k m with Some v => Some v | None => dget k m' end.
Proof. induction m as [|[k' v'] m IH]; cbn; auto. now destruct (dpath_eqb k' k). Qed.

(** ** Loading suites that are in place *)
Hypothesis RD : is_dir w [] = true.
Hypothesis IP : in_place w.
Definition proper (su : suite) (d : dpath) : Prop := su_dir su = d /\ su_source su = d /\ su_config su = suite_config w d.
Definition loaded (st : registry) (d : dpath) : Prop := dget d (r_suites st) <> None.
Record Inv (st : registry) : Prop := mkInv {
  v_cache : exists h, cached h (r_cache st) /\
    (forall i, In i h -> (fst (fst i) = abs (snd i) \/ fst (fst i) = abs (snd i ++ [SUITE])) /\ loaded st (snd i)) /\
    (forall d, loaded st d -> inserted h (abs d));
  v_suites : forall d su, dget d (r_suites st) = Some su -> proper su d /\ suite_dir w d;
  v_tests : forall d, dget d (r_tests st) <> None <-> loaded st d;
  v_search : forall n, r_search st n = [];
  v_nodup : NoDup (map fst (r_tests st)) }.
(** the tests of the suite at [d] *)
Definition su_at (d : dpath) : suite := mkSuite 0 d d (suite_config w d).
Definition tests_at (d : dpath) : list test :=
  match at_w d with
  | Some e => map (fun f => mkTest d (skipn (length d) f) f (suite_config w d)) (fst (walk w d (su_at d) (suite_config w d) d e))
  | None => []
  end.
Lemma is_test_ext su su' c p : su_source su = su_source su' -> is_test w p su c = is_test w p su' c.
Proof. unfold is_test. now intros ->. Qed.
Lemma walk_ext s su su' c e : su_source su = su_source su' -> forall p, walk w s su c p e = walk w s su' c p e.
Proof.
  intros E. induction e as [|l IH] using entry_ind'; intros p.
  - cbn. now rewrite (is_test_ext su su').
  - rewrite !walk_dir, E. destruct (_ || _); auto. rewrite Forall_forall in IH. f_equal; apply flat_map_ext_in; intros x X; now rewrite IH.
Qed.
Lemma last_value_key h d : (forall i : ins dpath, In i h -> fst (fst i) = abs d -> snd i = d) -> inserted h (abs d) -> last_value h (abs d) = Some d.
Proof.
  unfold last_value, inserted. intros H I. enough (forall acc, (In (abs d) (map (fun i => fst (fst i)) h) \/ acc = Some d) -> fold_left (fun acc i => if path_eqb (fst (fst i)) (abs d) then Some (snd i) else acc) h acc = Some d) by auto.
  clear I. revert H. induction h as [|i h IH]; intros H acc [A|A]; cbn; auto; [easy|..].
  - destruct (path_eqb (fst (fst i)) (abs d)) eqn:E.
    + apply path_eqb_eq in E. apply IH; [intros j J; apply H; now right|]. right. f_equal. apply H; [now left|auto].
    + apply IH; [intros j J; apply H; now right|]. destruct A as [A|A]; auto. exfalso. rewrite A in E. rewrite (proj2 (path_eqb_eq _ _) eq_refl) in E. easy.
  - subst acc. apply IH; [intros j J; apply H; now right|]. right. destruct (path_eqb (fst (fst i)) (abs d)) eqn:E; auto. apply path_eqb_eq in E. f_equal. apply H; [now left|auto].
Qed.
Lemma last_value_none {V} (h : list (ins V)) q : ~ inserted h q -> last_value h q = None.
Proof.
  unfold last_value, inserted. intros I. enough (forall acc, fold_left (fun acc i => if path_eqb (fst (fst i)) q then Some (snd i) else acc) h acc = acc) by auto.
  induction h as [|i h IH]; intros acc; auto. cbn in *. destruct (path_eqb (fst (fst i)) q) eqn:E; [apply path_eqb_eq in E; tauto|]. apply IH. tauto.
Qed.
Lemma suite_file_at d : suite_dir w d -> at_w (d ++ [SUITE]) = Some EFile /\ exists sf, w_suite w d = Some sf /\ sf_source sf = None.
Proof. intros (l & e & A & B). destruct (IP _ _ _ A B) as [-> H]. split; auto. rewrite at_app, A. cbn [at_]. now rewrite B. Qed.
Lemma suite_is_dir d : suite_dir w d -> is_dir w d = true.
Proof. intros (l & e & A & B). unfold is_dir. now rewrite A. Qed.
Lemma suite_found d : suite_dir w d -> search_name w d SUITE = Val (Some (d ++ [SUITE])).
Proof. intros (l & e & A & B). destruct (IP _ _ _ A B) as [-> H]. unfold search_name. now rewrite A, B. Qed.

Lemma find_suite d st : Inv st -> suite_dir w d -> exists su st1, find_nearest_suite w d st = Val (Some su, st1) /\ Inv st1 /\ proper su d /\ loaded st1 d /\
  (forall q, q <> d -> dget q (r_tests st1) = dget q (r_tests st)).
Proof.
  intros I S. unfold find_nearest_suite. rewrite (suite_is_dir d S). destruct (v_cache st I) as (h & C & H1 & H2). rewrite (cached_get RD h _ d C). cbn [bind].
  assert (KEY : forall i, In i h -> fst (fst i) = abs d -> snd i = d).
  { intros i J E. destruct (H1 i J) as [[X|X] L]; rewrite E in X; apply abs_inj in X; [easy|]. exfalso. destruct (dget (snd i) (r_suites st)) as [su|] eqn:D; [|now apply L].
    destruct (v_suites st I _ _ D) as [_ SD]. apply suite_file_at in SD as [SD _]. rewrite <- X in SD. apply suite_is_dir in S. unfold is_dir in S. now rewrite SD in S. }
  destruct (dget d (r_suites st)) as [su|] eqn:D.
  - assert (L : loaded st d) by (unfold loaded; congruence). rewrite (last_value_key h d KEY (H2 d L)). unfold get_suite. rewrite D. cbn. exists su, st. splits; auto. apply (v_suites st I d su D).
  - assert (NI : ~ inserted h (abs d)).
    { intros X. apply in_map_iff in X as (i & E & J). pose proof (KEY i J E) as <-. destruct (H1 i J) as [_ L]. now apply L. }
    rewrite (last_value_none h _ NI). rewrite (suite_found d S). cbn [bind]. unfold load_without_cache. destruct (suite_file_at d S) as (FA & sf & SF & SS). rewrite SF, SS, (suite_is_dir d S), D. cbn [negb].
    destruct (cached_insert RD h (r_cache st) (d ++ [SUITE]) d C) as (c1 & E1 & C1); [congruence|]. rewrite E1. cbn [bind].
    destruct (cached_insert RD _ c1 d d C1) as (c2 & E2 & C2). { apply suite_is_dir in S. unfold is_dir in S. now destruct (at_w d). }
    rewrite E2. cbn [bind]. eexists _, _. split; [reflexivity|].
    assert (CFG : inherit (sf_config sf) (w_defaults w d) = suite_config w d) by (unfold suite_config; now rewrite SF). rewrite CFG. clear CFG.
    assert (LD : forall q, dget q (r_suites st ++ [(d, mkSuite (r_next st) d d (suite_config w d))]) <> None <-> loaded st q \/ q = d).
    { intros q. rewrite dget_app. unfold loaded. destruct (dget q (r_suites st)) as [x|] eqn:DQ; [split; [left; congruence|easy]|]. cbn. destruct (dpath_eqb d q) eqn:EQ.
      - apply dpath_eqb_eq in EQ. subst. split; [now right|easy].
      - apply dpath_eqb_neq in EQ. split; [easy|]. intros [X|X]; congruence. }
    destruct (keys_dput d ([] : list test) (r_tests st) (v_nodup st I)) as [ND KD].
    splits; auto; try reflexivity.
    + constructor; cbn [r_cache r_suites r_tests r_search].
      * exists ((h ++ [(abs (d ++ [SUITE]), path_type w (d ++ [SUITE]), d)]) ++ [(abs d, path_type w d, d)]). splits; auto.
        -- intros i J. unfold loaded. cbn [r_suites]. rewrite LD. apply in_app_iff in J as [J|[<-|[]]]; [|cbn; auto]. apply in_app_iff in J as [J|[<-|[]]]; [|cbn; auto]. destruct (H1 i J). auto.
        -- intros q L. unfold loaded in L. cbn [r_suites] in L. rewrite LD in L. unfold inserted. rewrite !map_app. apply in_app_iff. destruct L as [L| ->]; [left; apply in_app_iff; left; now apply H2|right; now left].
      * intros q su. rewrite dget_app. destruct (dget q (r_suites st)) as [x|] eqn:DQ; [intros [= <-]; now apply (v_suites st I)|]. cbn. destruct (dpath_eqb d q) eqn:EQ; [|easy]. apply dpath_eqb_eq in EQ. intros [= <-]. subst q. split; auto. now split.
      * intros q. rewrite dget_dput. unfold loaded. cbn [r_suites]. rewrite LD, <- (v_tests st I q). destruct (dpath_eqb d q) eqn:EQ; [apply dpath_eqb_eq in EQ; subst; split; [now right|easy]|]. apply dpath_eqb_neq in EQ. split; [now left|]. intros [X|X]; congruence.
      * apply (v_search st I).
      * auto.
    + now split.
    + apply (proj2 (LD d)). now right.
    + intros q Q. cbn [r_tests]. rewrite dget_dput. assert (X : dpath_eqb d q = false) by (apply dpath_eqb_neq; congruence). now rewrite X.
Qed.

(** changing the tests of a loaded suite *)
Lemma Inv_set_tests st d l : Inv st -> loaded st d -> Inv (set_tests st (dput d l (r_tests st))).
Proof.
  intros I L. destruct (keys_dput d l (r_tests st) (v_nodup st I)) as [ND KD]. destruct I as [I1 I2 I3 I4 I5]. constructor; auto.
  intros q. cbn. rewrite dget_dput. unfold loaded in *. cbn. destruct (dpath_eqb d q) eqn:E; auto. apply dpath_eqb_eq in E. subst. split; easy.
Qed.
Lemma Inv_set_search st a : Inv st -> Inv (set_search st a []).
Proof. intros [I1 I2 I3 I4 I5]. constructor; auto. intros n. cbn. now destruct (Nat.eqb n a). Qed.

(** what loading the suites below [ds] does *)
Definition after (ds : list dpath) (st st' : registry) : Prop :=
  Inv st' /\
  (forall d x, In d ds -> suite_dir w (d ++ x) -> dget (d ++ x) (r_tests st') = Some (tests_at (d ++ x))) /\
  (forall q, (forall d x, In d ds -> q <> d ++ x) -> dget q (r_tests st') = dget q (r_tests st)).
Lemma load_all_after (ld : dpath -> registry -> res registry) ds :
  (forall d st, In d ds -> Inv st -> exists st', ld d st = Val st' /\ after [d] st st') ->
  forall st, Inv st -> exists st', load_all ld ds st = Val st' /\ after ds st st'.
Proof.
  induction ds as [|d ds IH]; intros H st I; cbn.
  - exists st. split; auto. unfold after. splits; auto. easy.
  - destruct (H d st) as (st1 & E1 & I1 & A1 & B1); [now left|auto|]. rewrite E1. cbn [bind].
    destruct (IH (fun d' st => fun J => H d' st (or_intror J)) st1 I1) as (st2 & E2 & I2 & A2 & B2). exists st2. split; auto. unfold after. splits; auto.
    + intros d' x [<-|J] S; [|now apply A2]. destruct (in_dec (list_eq_dec (list_eq_dec N.eq_dec)) d ds) as [J|J]; [now apply A2|].
      (* is it below one of the later ones? *)
      destruct (existsb (fun d' => starts_with (d ++ x) d') ds) eqn:X.
      * apply existsb_exists in X as (d' & J' & X). apply starts_with_spec in X as (y & Y). rewrite Y in *. now apply A2.
      * rewrite B2; [now apply A1; [left|]|]. intros d' y J' Y. assert (existsb (fun d' => starts_with (d ++ x) d') ds = true); [|congruence].
        apply existsb_exists. exists d'. split; auto. apply starts_with_spec. eauto.
    + intros q Q. rewrite B2 by (intros d' x J; apply Q; now right). apply B1. intros d' x [<-|[]]. apply Q. now left.
Qed.

Lemma relative_tests (su : suite) (c : config) s l : (forall f, In f l -> exists r, f = s ++ r) ->
  (fix relative l := match l with
        | [] => Val []
        | f :: r => do x <- unwrap (dstrip s f); do y <- relative r; Val (new_test su x c :: y)
        end) l = Val (map (fun f => new_test su (skipn (length s) f) c) l).
Proof.
  induction l as [|f l IH]; intros H; auto. destruct (H f) as (r & ->); [now left|]. rewrite dstrip_app. cbn [unwrap bind]. rewrite IH by (intros g J; apply H; now right). cbn.
  f_equal. f_equal. f_equal. rewrite skipn_app, Nat.sub_diag, skipn_all. reflexivity.
Qed.

Lemma load_suite fuel : forall d st e, at_w d = Some e -> height e < fuel -> suite_dir w d -> starts_with d (w_cwd w) = true -> Inv st ->
  exists st', load_from_path w fuel d st = Val st' /\ after [d] st st'.
Proof.
  induction fuel as [|f IH]; intros d st e A HF S CW I; [lia|]. cbn [load_from_path]. rewrite A, CW. cbn [negb].
  destruct (find_suite d st I S) as (su & st1 & E1 & I1 & (P1 & P2 & P3) & L1 & O1). rewrite E1. cbn [bind]. rewrite P2. pose proof (dstrip_app d []) as DS. rewrite app_nil_r in DS. rewrite DS. cbn [unwrap bind].
  unfold load_tests. rewrite P1. destruct (dget d (r_tests st1)) as [old|] eqn:D1; [|exfalso; apply (v_tests st1 I1 d) in L1; now apply L1]. cbn [unwrap bind].
  set (st2 := set_search _ _ _). assert (I2 : Inv st2) by (apply Inv_set_search, Inv_set_tests; auto). cbn [r_search set_tests]. rewrite (v_search st1 I1). unfold get_tests. rewrite P2, A.
  destruct (walk w d su (su_config su) d e) as [files nested] eqn:W.
  assert (WF : files = fst (walk w d (su_at d) (suite_config w d) d e)) by (rewrite <- (walk_ext d su (su_at d)), <- P3, W; auto).
  assert (WN : forall n, In n nested <-> exists r, n = d ++ r /\ suite_dir w n /\ n <> d /\ entered d su d r).
  { intros n. replace nested with (snd (walk w d su (su_config su) d e)) by now rewrite W. rewrite (walk_nested d su (su_config su) e d A). rewrite P2. split; intros (r & H); exists r; tauto. }
  rewrite (relative_tests su (su_config su) d files). 2:{ intros g G. rewrite WF in G. apply (walk_files d (su_at d) _ e d A) in G as (r & -> & _). eauto. }
  cbn [bind]. assert (FN : filter (fun n => negb (dpath_eqb n d || dpath_eqb n d)) nested = nested).
  { clear - WN. assert (forall n, In n nested -> n <> d) as H by (intros n N; apply WN in N as (r & _ & _ & N & _); auto). clear WN. induction nested as [|n l IHl]; auto. cbn. assert (X : dpath_eqb n d = false) by (apply dpath_eqb_neq; apply H; now left). rewrite X. cbn. f_equal. apply IHl. intros m M. apply H. now right. }
  rewrite FN. clear FN.
  destruct (load_all_after (load_from_path w f) nested) with (st := st2) as (st3 & E3 & I3 & A3 & B3); auto.
  { intros n stn J In_. pose proof J as J0. apply WN in J0 as (r & -> & SN & ND & _). assert (R : r <> []) by (intros ->; now rewrite app_nil_r in ND).
    pose proof SN as (l & e' & AN & _). apply (IH _ stn (EDir l)); auto.
    - rewrite at_app, A in AN. apply height_at in AN; auto. lia.
    - apply starts_with_spec in CW as (y & ->). apply starts_with_spec. exists (y ++ r). now rewrite app_assoc. }
  rewrite E3. cbn [bind]. unfold append_tests.
  assert (DD : forall n x, In n nested -> d <> n ++ x).
  { intros n x J E. apply WN in J as (r & -> & _ & ND & _). rewrite <- app_assoc in E. rewrite <- (app_nil_r d) in E at 1. apply app_inv_head in E. symmetry in E. apply app_eq_nil in E as [-> _]. now rewrite app_nil_r in ND. }
  assert (D3 : dget d (r_tests st3) = Some []). { rewrite B3 by auto. cbn. now rewrite dget_dput, dpath_eqb_refl. }
  rewrite D3. cbn [unwrap bind app]. eexists. split; [reflexivity|]. unfold after. splits.
  - apply Inv_set_search, Inv_set_tests; auto. apply (v_tests st3 I3). congruence.
  - intros d' x [<-|[]] SX. cbn. rewrite dget_dput. destruct (dpath_eqb d (d ++ x)) eqn:EX.
    + apply dpath_eqb_eq in EX. rewrite <- EX in *. f_equal. unfold tests_at. rewrite A, <- WF. apply map_ext_in. intros g G.
      rewrite WF in G. apply (walk_files d (su_at d) _ e d A) in G as (r & -> & _). unfold new_test. rewrite P1, P2, P3. f_equal. rewrite skipn_app, Nat.sub_diag, skipn_all. reflexivity.
    + apply dpath_eqb_neq in EX. assert (X : x <> []) by (intros ->; now rewrite app_nil_r in EX). clear EX.
      (* the topmost suite between *)
      assert (TOP : exists a b, x = a ++ b /\ In (d ++ a) nested).
      { assert (G : forall n a b, length b <= n -> x = a ++ b -> entered d su d a -> (a <> [] \/ b <> []) -> exists a b, x = a ++ b /\ In (d ++ a) nested).
        { induction n as [|n IHn]; intros a b LB EX EN NE.
          - destruct b; [|cbn in LB; lia]. rewrite app_nil_r in EX. subst a. exists x, []. rewrite app_nil_r. split; auto. apply WN. exists x. splits; auto. intros Z. rewrite <- (app_nil_r d) in Z at 2. apply app_inv_head in Z. easy.
          - destruct b as [|y b]; [apply (IHn a []); auto; cbn; lia|].
            assert (DEC : suite_dir w (d ++ a) \/ ~ suite_dir w (d ++ a)).
            { unfold suite_dir. destruct (at_w (d ++ a)) as [[|l]|]; [right; intros (? & ? & [=] & _)| |right; intros (? & ? & [=] & _)]. destruct (lookup SUITE l) as [ee|] eqn:EE; [left; exists l, ee; auto|right; intros (? & ? & [= <-] & ?); congruence]. }
            assert (NX : opens d su (d ++ a) -> exists a b, x = a ++ b /\ In (d ++ a) nested).
            { intros OP. apply (IHn (a ++ [y]) b); [cbn in LB; lia|now rewrite <- app_assoc| |left; now destruct a].
              intros a' b' E' B'. destruct (list_eq_dec (list_eq_dec N.eq_dec) b' [y]) as [->|NB].
              - apply app_inj_tail in E' as [<- _]. exact OP.
              - destruct (exists_last B') as (b2 & z & ->). rewrite app_assoc in E'. apply app_inj_tail in E' as [-> <-]. apply (EN a' b2); auto. intros ->. now apply NB. }
            destruct a as [|z a].
            + apply NX. left. now rewrite app_nil_r.
            + destruct DEC as [DS1|DS1]; [|apply NX; right; now right]. exists (z :: a), (y :: b). split; auto. apply WN. exists (z :: a). splits; auto. intros Z. rewrite <- (app_nil_r d) in Z at 2. apply app_inv_head in Z. easy. }
        apply (G (length x) [] x); auto. apply entered_nil. }
      destruct TOP as (a & b & -> & J). rewrite app_assoc. rewrite app_assoc in SX. rewrite A3; auto.
  - intros q Q. assert (QD : q <> d) by (specialize (Q d []); rewrite app_nil_r in Q; apply Q; now left). cbn. rewrite dget_dput. assert (X : dpath_eqb d q = false) by (apply dpath_eqb_neq; congruence). rewrite X, B3.
    + cbn. rewrite dget_dput, X. now apply O1.
    + intros n x J. apply WN in J as (r & -> & _). rewrite <- app_assoc. apply Q. now left.
Qed.

(** the tests of one suite, said without the traversal *)
Lemma is_test_spec su c rel : rel <> [] -> is_test w (su_source su ++ rel) su c = true <-> at_w (su_source su ++ rel) = Some EFile /\ accepts w c rel.
Proof.
  intros R. unfold is_test, accepts, hidden, is_file. rewrite dstrip_app. assert (LA : last (su_source su ++ rel) [] = last rel []).
  { destruct (exists_last R) as (a & z & ->). rewrite app_assoc, !last_last. reflexivity. }
  rewrite LA. assert (HID : match last rel [] with c :: _ => N.eqb c 46 | [] => false end = false <-> forall t, last rel [] <> 46%N :: t).
  { destruct (last rel []) as [|z t]; [split; easy|]. split; [intros H t' [= -> _]; easy|]. intros H. apply N.eqb_neq. intros ->. now apply (H t). }
  assert (EX : existsb (fun g => w_glob w g rel) (cf_patterns c) = true <-> exists g, In g (cf_patterns c) /\ w_glob w g rel = true) by apply existsb_exists.
  assert (NX : existsb (fun g => w_glob w g rel) (cf_exclude c) = false <-> forall g, In g (cf_exclude c) -> w_glob w g rel = false).
  { split.
    - intros H g G. destruct (w_glob w g rel) eqn:E; auto. assert (existsb (fun g => w_glob w g rel) (cf_exclude c) = true) by (apply existsb_exists; eauto). congruence.
    - intros H. apply not_true_is_false. intros X. apply existsb_exists in X as (g & G & X). rewrite H in X; easy. }
  rewrite <- HID, <- EX, <- NX. destruct (match last rel [] with c :: _ => N.eqb c 46 | [] => false end); cbn; [split; easy|].
  destruct (at_w (su_source su ++ rel)) as [[|l]|]; cbn; [|split; easy|split; easy].
  destruct (existsb (fun g => w_glob w g rel) (cf_patterns c)); cbn; [|split; intros; intuition congruence].
  destruct (cf_exclude c) as [|g ex]; cbn; [intuition congruence|]. destruct (w_glob w g rel || existsb _ ex)%bool; cbn; intuition congruence.
Qed.
Lemma tests_at_spec d t : suite_dir w d -> In t (tests_at d) <-> exists rel, at_w (d ++ rel) = Some EFile /\ innermost w d rel /\ accepts w (suite_config w d) rel /\ t = mkTest d rel (d ++ rel) (suite_config w d).
Proof.
  intros S. unfold tests_at. pose proof S as (l & e & A & _). rewrite A. rewrite in_map_iff.
  assert (SK : forall r, skipn (length d) (d ++ r) = r) by (intros r; rewrite skipn_app, Nat.sub_diag, skipn_all; reflexivity).
  split.
  - intros (f & <- & F). apply (walk_files d (su_at d) _ _ d A) in F as (r & -> & F1 & F2 & F3). exists r. rewrite SK. assert (R : r <> []) by (intros ->; easy).
    apply (is_test_spec (su_at d) _ r R) in F2 as [F2 F4]. cbn [su_source su_at] in F2. splits; auto. unfold innermost. splits; auto. intros a b -> NA NB SD. destruct (F3 a b eq_refl NB) as [X|[X|X]]; auto; cbn in X; rewrite <- (app_nil_r d) in X at 2; now apply app_inv_head in X.
  - intros (r & F1 & (_ & R & F2) & F3 & ->). exists (d ++ r). rewrite SK. split; auto. apply (walk_files d (su_at d) _ _ d A). exists r. splits; auto.
    + rewrite at_app, A in F1. exact F1.
    + apply (is_test_spec (su_at d) _ r R). auto.
    + intros a b -> NB. destruct a as [|z a]; [left; now rewrite app_nil_r|]. right. right. now apply (F2 (z :: a) b).
Qed.
Lemma tests_at_nodup d : NoDup (tests_at d).
Proof.
  unfold tests_at. destruct (at_w d) as [e|] eqn:A; [|constructor]. apply FinFun.Injective_map_NoDup; [|now apply walk_nodup]. intros f g [= _ H]. exact H.
Qed.
Lemma Inv_empty : Inv empty_registry.
Proof.
  constructor; cbn; try easy; try constructor. exists []. split; [apply cached_nil|]. split; easy.
Qed.
End W.
