From Coq Require Import Permutation Sorted.
From Verif Require Import Base Map_Model Tree_Model Tree_Spec.

(** ** components and paths *)
Lemma comp_eqb_eq a b : comp_eqb a b = true <-> a = b.
Proof. destruct a, b; cbn; split; try easy; intros H; [apply str_eqb_eq in H; congruence|injection H as ->; apply str_eqb_refl]. Qed.
Lemma comp_eqb_refl a : comp_eqb a a = true.
Proof. now apply comp_eqb_eq. Qed.
Lemma comp_eqb_neq a b : comp_eqb a b = false <-> a <> b.
Proof. rewrite <- comp_eqb_eq. destruct comp_eqb; split; congruence. Qed.
Definition comp_dec (a b : comp) : {a = b} + {a <> b}.
Proof. destruct (comp_eqb a b) eqn:E; [left; now apply comp_eqb_eq|right; now apply comp_eqb_neq]. Defined.
Lemma comp_cmp_eq a b : comp_cmp a b = Eq <-> a = b.
Proof. destruct a, b; cbn; split; try easy; intros H; [apply str_cmp_eq in H; congruence|injection H as ->; apply str_cmp_refl]. Qed.
Lemma comp_cmp_refl a : comp_cmp a a = Eq.
Proof. now apply comp_cmp_eq. Qed.
Lemma comp_cmp_anti a b : comp_cmp b a = CompOpp (comp_cmp a b).
Proof. destruct a, b; cbn; auto. apply str_cmp_anti. Qed.
Lemma comp_cmp_trans a b c : comp_cmp a b = Lt -> comp_cmp b c = Lt -> comp_cmp a c = Lt.
Proof. destruct a, b, c; cbn; try easy. apply str_cmp_trans. Qed.
Lemma path_eqb_eq a : forall b, path_eqb a b = true <-> a = b.
Proof.
  induction a as [|x a IH]; intros [|y b]; cbn; split; try easy.
  - intros H. apply andb_true_iff in H as [H1 H2]. apply comp_eqb_eq in H1. apply IH in H2. congruence.
  - intros [= -> ->]. rewrite comp_eqb_refl. cbn. now apply IH.
Qed.
Lemma path_eqb_refl a : path_eqb a a = true.
Proof. now apply path_eqb_eq. Qed.
Lemma path_eqb_neq a b : path_eqb a b = false <-> a <> b.
Proof. rewrite <- path_eqb_eq. destruct path_eqb; split; congruence. Qed.
Lemma path_eqb_sym a b : path_eqb a b = path_eqb b a.
Proof. destruct (path_eqb b a) eqn:E; [apply path_eqb_eq in E; subst; apply path_eqb_refl|apply path_eqb_neq in E; apply path_eqb_neq; congruence]. Qed.
Lemma path_eqb_app c a b : path_eqb (c ++ a) (c ++ b) = path_eqb a b.
Proof. induction c; cbn; auto. now rewrite comp_eqb_refl. Qed.

Lemma strip_some c : forall p r, strip c p = Some r <-> p = c ++ r.
Proof.
  induction c as [|x c IH]; intros p r; cbn; [split; congruence|]. destruct p as [|y p]; [split; easy|].
  destruct (comp_eqb x y) eqn:E; [apply comp_eqb_eq in E; subst; rewrite IH; split; congruence|].
  apply comp_eqb_neq in E. split; [easy|congruence].
Qed.
Lemma strip_none c p : strip c p = None <-> forall r, p <> c ++ r.
Proof.
  destruct (strip c p) as [r|] eqn:E; [apply strip_some in E; split; [easy|intros H; now apply H in E]|].
  split; auto. intros _ r H. apply strip_some in H. congruence.
Qed.
Lemma strip_app c r : strip c (c ++ r) = Some r.
Proof. now apply strip_some. Qed.
Lemma stripped_app c r : stripped c (c ++ r) = r.
Proof. unfold stripped. now rewrite strip_app. Qed.

(** ** prefixes *)
Lemma common_prefix_go_spec a : forall acc b, match common_prefix_go acc a b with
  | None => acc = [] /\ exists x a' y b', a = x :: a' /\ b = y :: b' /\ x <> y
  | Some Exact => a = b
  | Some Child => exists r, r <> [] /\ b = a ++ r
  | Some Ancestor => exists r, r <> [] /\ a = b ++ r
  | Some (Partial c) => c <> [] /\ exists c', c = acc ++ c' /\ exists x a' y b', a = c' ++ x :: a' /\ b = c' ++ y :: b' /\ x <> y
  end.
Proof.
  induction a as [|x a IH]; intros acc [|y b]; cbn; auto.
  - exists (y :: b). easy.
  - exists (x :: a). easy.
  - destruct (comp_eqb x y) eqn:E.
    + apply comp_eqb_eq in E. subst y. specialize (IH (acc ++ [x]) b). destruct (common_prefix_go (acc ++ [x]) a b) as [[| | |c]|].
      * congruence.
      * destruct IH as (r & R & ->). exists r. easy.
      * destruct IH as (r & R & ->). exists r. easy.
      * destruct IH as (N & c' & -> & x1 & a' & y1 & b' & -> & -> & D). split; auto. exists (x :: c'). split; [now rewrite <- app_assoc|]. exists x1, a', y1, b'. easy.
      * destruct IH as [H _]. now destruct acc.
    + apply comp_eqb_neq in E. destruct acc as [|z acc]; [split; auto; now exists x, a, y, b|]. split; [easy|]. exists []. split; [now rewrite app_nil_r|]. now exists x, a, y, b.
Qed.
Lemma common_prefix_spec n p : match common_prefix n p with
  | None => exists x a' y b', component n = x :: a' /\ p = y :: b' /\ x <> y
  | Some Exact => component n = p
  | Some Child => exists r, r <> [] /\ p = component n ++ r
  | Some Ancestor => exists r, r <> [] /\ component n = p ++ r
  | Some (Partial c) => c <> [] /\ exists x a' y b', component n = c ++ x :: a' /\ p = c ++ y :: b' /\ x <> y
  end.
Proof.
  unfold common_prefix. pose proof (common_prefix_go_spec (component n) [] p) as H. destruct common_prefix_go as [[| | |c]|]; auto.
  - destruct H as (N & c' & -> & H). easy.
  - tauto.
Qed.
Lemma hcp_true a : forall b, has_common_prefix_go true a b = true.
Proof. induction a as [|x a IH]; intros [|y b]; cbn; auto. destruct comp_eqb; auto. Qed.

(** ** nodes: induction, order, well-formedness *)
Section Ind.
Variable P : node -> Prop.
Hypothesis PL : forall c ty d, P (Leaf c ty d).
Hypothesis PB : forall c ch d, Forall P ch -> P (Branch c ch d).
Fixpoint node_ind' (n : node) : P n :=
  match n with
  | Leaf c ty d => PL c ty d
  | Branch c ch d => PB c ch d ((fix go l : Forall P l := match l with [] => Forall_nil _ | x :: r => Forall_cons _ (node_ind' x) (go r) end) ch)
  end.
End Ind.

(** the first component; [Root] stands in for the empty component, which does not occur *)
Definition head (n : node) : comp := hd Root (component n).
Definition hlt (a b : node) : Prop := comp_cmp (head a) (head b) = Lt.
Fixpoint wf (n : node) : Prop :=
  component n <> [] /\
  match n with
  | Leaf _ ty d => d <> None /\ ty <> Dir
  | Branch _ ch d => (d = None -> ch <> []) /\ StronglySorted hlt ch /\ (fix all l := match l with [] => True | x :: r => wf x /\ all r end) ch
  end.
Lemma wf_all ch : (fix all l := match l with [] => True | x :: r => wf x /\ all r end) ch <-> Forall wf ch.
Proof. induction ch as [|x r IH]; split; auto; [intros [H1 H2]; constructor; auto; now apply IH|intros H; inversion_clear H; split; auto; now apply IH]. Qed.
Lemma wf_branch c ch d : wf (Branch c ch d) <-> c <> [] /\ (d = None -> ch <> []) /\ StronglySorted hlt ch /\ Forall wf ch.
Proof. cbn [wf]. rewrite wf_all. easy. Qed.
Definition wfl (l : list node) : Prop := StronglySorted hlt l /\ Forall wf l.
Lemma wf_component n : wf n -> component n <> [].
Proof. destruct n; cbn; tauto. Qed.
Lemma hcp_eq n y p : component n <> [] -> has_common_prefix n (y :: p) = comp_eqb (head n) y.
Proof.
  unfold has_common_prefix, head. destruct (component n) as [|x c]; [easy|]. intros _. cbn. destruct comp_eqb; auto using hcp_true.
Qed.
Lemma hlt_trans a b c : hlt a b -> hlt b c -> hlt a c.
Proof. unfold hlt. apply comp_cmp_trans. Qed.

(** what a node knows of a path: the key, and the type if it is a leaf *)
Definition info_of (o : option node) : option nat * option ptype :=
  match o with Some (Leaf _ ty d) => (d, Some ty) | Some (Branch _ _ d) => (d, None) | None => (None, None) end.
Definition info n p := info_of (node_get n p).
Definition pick (ns : list node) (p : path) : option node := find (fun x => has_common_prefix x p) ns.
Definition infol ns p := match pick ns p with Some x => info x p | None => (None, None) end.
Lemma node_get_branch c ch d p : node_get (Branch c ch d) p =
  match strip c p with None => None | Some [] => Some (Branch c ch d) | Some rest => match pick ch rest with Some x => node_get x rest | None => None end end.
Proof.
  cbn [node_get]. destruct (strip c p) as [[|y rest]|]; auto. unfold pick.
  induction ch as [|x r IH]; cbn [find]; auto. destruct has_common_prefix; auto.
Qed.
Lemma info_branch c ch d p : info (Branch c ch d) p =
  match strip c p with None => (None, None) | Some [] => (d, None) | Some rest => infol ch rest end.
Proof. unfold info, infol, info. rewrite node_get_branch. destruct (strip c p) as [[|y rest]|]; auto. destruct pick; auto. Qed.
Lemma info_leaf c ty d p : info (Leaf c ty d) p = if path_eqb p c then (d, Some ty) else (None, None).
Proof. unfold info. cbn. destruct path_eqb; auto. Qed.

(** a node only knows paths that begin with its component *)
Lemma info_other n p : (forall r, p <> component n ++ r) -> info n p = (None, None).
Proof.
  destruct n as [c ty d|c ch d]; cbn [component]; intros H.
  - rewrite info_leaf. destruct (path_eqb p c) eqn:E; auto. apply path_eqb_eq in E. subst. exfalso. apply (H []). now rewrite app_nil_r.
  - rewrite info_branch. apply strip_none in H. now rewrite H.
Qed.
Lemma info_head n x p : component n <> [] -> head n <> x -> info n (x :: p) = (None, None).
Proof. intros N H. apply info_other. intros r E. unfold head in H. destruct (component n); [easy|]. cbn in *. congruence. Qed.
Lemma info_nil n : component n <> [] -> info n [] = (None, None).
Proof. intros N. apply info_other. intros r E. now destruct (component n). Qed.

(** in a list with distinct heads, a path concerns one node at most *)
Lemma sorted_heads l : StronglySorted hlt l -> NoDup (map head l).
Proof.
  induction 1 as [|a l S IH F]; cbn; constructor; auto. intros I. apply in_map_iff in I as (b & E & I). rewrite Forall_forall in F.
  apply F in I. unfold hlt in I. rewrite E, comp_cmp_refl in I. easy.
Qed.
Lemma infol_in ns n p : NoDup (map head ns) -> Forall wf ns -> In n ns -> p <> [] -> hd Root p = head n -> infol ns p = info n p.
Proof.
  intros ND W I NE E. destruct p as [|y p]; [easy|]. cbn in E. subst y. unfold infol.
  induction ns as [|x r IH]; [easy|]. inversion_clear ND as [|? ? N1 N2]. inversion_clear W as [|? ? W1 W2]. cbn. rewrite hcp_eq by now apply wf_component.
  destruct I as [->|I]; [now rewrite comp_eqb_refl|]. destruct (comp_eqb (head x) (head n)) eqn:E; [|now apply IH].
  apply comp_eqb_eq in E. exfalso. apply N1. rewrite E. now apply in_map.
Qed.
Lemma infol_notin ns p : Forall wf ns -> p <> [] -> ~ In (hd Root p) (map head ns) -> infol ns p = (None, None).
Proof.
  intros W NE. destruct p as [|y p]; [easy|]. cbn. unfold infol. induction W as [|x r W _ IH]; cbn; auto. rewrite hcp_eq by now apply wf_component.
  intros H. destruct (comp_eqb (head x) y) eqn:E; [apply comp_eqb_eq in E; tauto|]. tauto.
Qed.
Lemma infol_perm ns ms p : NoDup (map head ns) -> Forall wf ns -> Permutation ns ms -> p <> [] -> infol ns p = infol ms p.
Proof.
  intros ND W P NE.
  assert (ND' : NoDup (map head ms)) by (eapply Permutation_NoDup; [|exact ND]; now apply Permutation_map).
  assert (W' : Forall wf ms) by (eapply Permutation_Forall; eauto).
  destruct (in_dec comp_dec (hd Root p) (map head ns)) as [D|D].
  - apply in_map_iff in D as (n & E & I). rewrite (infol_in ns n), (infol_in ms n); auto. eapply Permutation_in; eauto.
  - rewrite !infol_notin; auto. intros I. apply D. eapply Permutation_in; [|exact I]. apply Permutation_map. now symmetry.
Qed.

(** ** the sort *)
Lemma insert_sorted_perm x l : Permutation (insert_sorted x l) (x :: l).
Proof. induction l as [|y r IH]; cbn; auto. destruct path_cmp; auto; rewrite IH; apply perm_swap. Qed.
Lemma sort_perm_go l : forall acc, Permutation (fold_left (fun acc x => insert_sorted x acc) l acc) (acc ++ l).
Proof.
  induction l as [|x r IH]; intros acc; cbn; [now rewrite app_nil_r|]. rewrite IH, insert_sorted_perm. cbn. apply Permutation_middle.
Qed.
Lemma sort_perm l : Permutation (sort l) l.
Proof. apply (sort_perm_go l []). Qed.
Lemma path_cmp_head a b : component a <> [] -> component b <> [] -> head a <> head b ->
  path_cmp (component a) (component b) = comp_cmp (head a) (head b).
Proof.
  unfold head. destruct (component a) as [|x p], (component b) as [|y q]; try easy. cbn. intros _ _ H. destruct (comp_cmp x y) eqn:E; auto.
  apply comp_cmp_eq in E. easy.
Qed.
Lemma insert_sorted_sorted x l : component x <> [] -> Forall (fun n => component n <> []) l -> ~ In (head x) (map head l) -> StronglySorted hlt l -> StronglySorted hlt (insert_sorted x l).
Proof.
  intros X N H S. induction S as [|y r S IH F]; cbn; [repeat constructor|]. inversion_clear N as [|? ? N1 N2]. cbn in H.
  rewrite path_cmp_head by (auto; intros E; apply H; auto).
  assert (K : forall z, hlt y z -> In z r -> hlt y z) by auto.
  assert (C : comp_cmp (head y) (head x) <> Eq) by (intros E; apply comp_cmp_eq in E; apply H; auto).
  destruct (comp_cmp (head y) (head x)) eqn:E; [easy| |].
  - constructor; [apply IH; auto|]. rewrite Forall_forall in *. intros z Z. apply (Permutation_in z (insert_sorted_perm x r)) in Z. destruct Z as [<-|Z]; auto.
  - assert (L : hlt x y) by (unfold hlt; rewrite comp_cmp_anti, E; easy).
    constructor; [constructor; auto|]. constructor; auto. rewrite Forall_forall in *. intros z Z. eapply hlt_trans; eauto.
Qed.
Lemma sort_sorted_go l : forall acc, Forall (fun n => component n <> []) (acc ++ l) -> NoDup (map head (acc ++ l)) -> StronglySorted hlt acc ->
  StronglySorted hlt (fold_left (fun acc x => insert_sorted x acc) l acc).
Proof.
  induction l as [|x r IH]; intros acc N D S; cbn; auto.
  assert (P : Permutation (acc ++ x :: r) (insert_sorted x acc ++ r)).
  { rewrite insert_sorted_perm. cbn. symmetry. apply Permutation_middle. }
  apply IH.
  - now rewrite <- P.
  - eapply Permutation_NoDup; [|exact D]. now apply Permutation_map.
  - rewrite map_app in D. cbn in D. apply NoDup_remove_2 in D. apply Forall_app in N as [N1 N2]. inversion_clear N2.
    apply insert_sorted_sorted; auto. intros I. apply D. apply in_or_app; auto.
Qed.
Lemma sort_sorted l : Forall (fun n => component n <> []) l -> NoDup (map head l) -> StronglySorted hlt (sort l).
Proof. intros. apply sort_sorted_go; auto. constructor. Qed.
Lemma sort_wfl l : Forall wf l -> NoDup (map head l) -> wfl (sort l).
Proof.
  intros W N. split.
  - apply sort_sorted; auto. eapply Forall_impl; [|exact W]. apply wf_component.
  - eapply Permutation_Forall; [|exact W]. symmetry. apply sort_perm.
Qed.
Lemma infol_sort l p : Forall wf l -> NoDup (map head l) -> p <> [] -> infol (sort l) p = infol l p.
Proof. intros. symmetry. apply infol_perm; auto. symmetry. apply sort_perm. Qed.

(** ** insertion *)
(** is [q] strictly above [p]? *)
Definition above (q p : path) : bool := match strip q p with Some (_ :: _) => true | _ => false end.
Lemma above_iff q p : above q p = true <-> below q p.
Proof.
  unfold above, below. destruct (strip q p) as [[|x r]|] eqn:E; split; try easy.
  - apply strip_some in E. intros (r & R & H). rewrite E in H. apply app_inv_head in H. now subst.
  - intros _. apply strip_some in E. now exists (x :: r).
  - intros (r & R & H). apply strip_some in H. congruence.
Qed.
Lemma above_app c q p : above (c ++ q) (c ++ p) = above q p.
Proof. unfold above. induction c as [|x c IH]; auto. cbn. now rewrite comp_eqb_refl. Qed.
Lemma above_false q p : above q p = false <-> ~ below q p.
Proof. rewrite <- above_iff. destruct above; split; congruence. Qed.

(** what an insertion does to what is known of [q] *)
Definition upd (f : path -> option nat * option ptype) (p : path) (k : nat) (t : option ptype) (q : path) :=
  if path_eqb q p then (Some k, t) else if above q p then (fst (f q), None) else f q.
(** the type that the inserted path itself gets *)
Definition newtype (f : path -> option nat * option ptype) (p : path) (ty : ptype) (t : option ptype) : Prop :=
  (t = match ty with Dir => None | _ => Some ty end /\ (t <> None -> forall r, r <> [] -> f (p ++ r) = (None, None))) \/
  (t = None /\ exists r, r <> [] /\ fst (f (p ++ r)) <> None).
Definition grown (f g : path -> option nat * option ptype) p ty k : Prop := exists t, newtype f p ty t /\ forall q, q <> [] -> g q = upd f p k t q.

Lemma info_take n p r q : component n = p ++ r -> info (take n p) q = info n (p ++ q).
Proof.
  intros C. destruct n as [c ty d|c ch d]; cbn [component take] in *; subst c; rewrite stripped_app.
  - now rewrite !info_leaf, path_eqb_app.
  - rewrite !info_branch. replace (strip (p ++ r) (p ++ q)) with (strip r q); auto.
    clear. induction p; cbn; auto. now rewrite comp_eqb_refl.
Qed.
Lemma wf_take n p r : wf n -> component n = p ++ r -> r <> [] -> wf (take n p).
Proof. intros W C R. destruct n as [c ty d|c ch d]; cbn [component take] in *; subst c; rewrite stripped_app; cbn in *; tauto. Qed.
Lemma component_take n p r : component n = p ++ r -> component (take n p) = r.
Proof. intros C. destruct n; cbn [component take] in *; subst c; now rewrite stripped_app. Qed.
Lemma wf_new c ty k : c <> [] -> wf (new_node c ty k).
Proof. intros H. destruct ty; cbn; repeat split; try easy; constructor. Qed.
Lemma component_new c ty k : component (new_node c ty k) = c.
Proof. now destruct ty. Qed.
Lemma info_new c ty k q : c <> [] -> info (new_node c ty k) q = if path_eqb q c then (Some k, match ty with Dir => None | _ => Some ty end) else (None, None).
Proof.
  intros H. destruct ty; cbn [new_node]; rewrite ?info_leaf; auto.
  rewrite info_branch. destruct (strip c q) as [[|y r]|] eqn:E.
  - apply strip_some in E. rewrite app_nil_r in E. subst. now rewrite path_eqb_refl.
  - apply strip_some in E. replace (path_eqb q c) with false; auto. symmetry. apply path_eqb_neq. intros ->. rewrite <- (app_nil_r c) in E at 1. apply app_inv_head in E. easy.
  - replace (path_eqb q c) with false; auto. symmetry. apply path_eqb_neq. intros ->. rewrite strip_none in E. apply (E []). now rewrite app_nil_r.
Qed.
Lemma head_app n c r : component n = c ++ r -> c <> [] -> head n = hd Root c.
Proof. unfold head. intros ->. now destruct c. Qed.

(** every well-formed node holds an entry *)
Lemma has_entry n : wf n -> exists q, fst (info n (component n ++ q)) <> None.
Proof.
  induction n as [c ty d|c ch d IH] using node_ind'; cbn [component]; intros W.
  - exists []. rewrite app_nil_r, info_leaf, path_eqb_refl. cbn in W. tauto.
  - apply wf_branch in W as (C & D & S & F). destruct d as [k|].
    + exists []. rewrite app_nil_r, info_branch. replace (strip c c) with (@Some path []); [easy|]. symmetry. apply strip_some. now rewrite app_nil_r.
    + destruct ch as [|x r]; [now destruct D|]. inversion IH as [|? ? H1 H2]; subst. inversion F as [|? ? F1 F2]; subst. destruct (H1 F1) as (q & Q).
      pose proof (wf_component _ F1) as X.
      exists (component x ++ q). rewrite info_branch, strip_app. destruct (component x ++ q) as [|y s] eqn:E; [destruct (component x); easy|]. rewrite <- E.
      rewrite (infol_in (x :: r) x).
      * rewrite E. exact Q.
      * now apply sorted_heads.
      * auto.
      * now left.
      * rewrite E. easy.
      * unfold head. destruct (component x); easy.
Qed.

Lemma insert_into_branch c ch d rest ty k : rest <> [] -> insert_into (Branch c ch d) (c ++ rest) ty k =
  match insert_roots ch rest ty k with
  | Some (inl (ch', i)) => inl (Branch c ch' d, S i)
  | Some (inr e) => inr e
  | None => inl (Branch c (sort (ch ++ [new_node rest ty k])) d, 1)
  end.
Proof.
  intros R. cbn [insert_into]. pose proof (common_prefix_spec (Branch c ch d) (c ++ rest)) as H. cbn [component] in H.
  assert (E : common_prefix (Branch c ch d) (c ++ rest) = Some Child).
  { destruct common_prefix as [[| | |c1]|]; auto.
    - rewrite <- (app_nil_r c) in H at 1. apply app_inv_head in H. congruence.
    - destruct H as (r & R' & H). rewrite <- app_assoc in H. rewrite <- (app_nil_r c) in H at 1. apply app_inv_head in H. symmetry in H. apply app_eq_nil in H. tauto.
    - destruct H as (N & x & a & y & b & H1 & H2 & D). rewrite H1, <- app_assoc in H2. apply app_inv_head in H2. cbn in H2. congruence.
    - destruct H as (x & a & y & b & H1 & H2 & D). rewrite H1 in H2. cbn in H2. congruence. }
  rewrite E. rewrite stripped_app.
  replace ((fix go l := match l with [] => None | x :: r => if has_common_prefix x rest then Some (match insert_into x rest ty k with inl (x', i) => inl (x' :: r, i) | inr e => inr e end) else match go r with Some (inl (r', i)) => Some (inl (x :: r', i)) | o => o end end) ch)
    with (insert_roots ch rest ty k); auto.
  clear. induction ch as [|x r IH]; cbn [insert_roots]; auto. destruct has_common_prefix; auto. now rewrite IH.
Qed.

Lemma nil_or {A} (l : list A) : l = [] \/ l <> [].
Proof. destruct l; [now left|now right]. Qed.
(** paths relative to a common part *)
Lemma upd_shift f p k t c q : upd f (c ++ p) k t (c ++ q) = upd (fun x => f (c ++ x)) p k t q.
Proof. unfold upd. now rewrite path_eqb_app, above_app. Qed.
Lemma newtype_shift f c p ty t : newtype (fun x => f (c ++ x)) p ty t -> newtype f (c ++ p) ty t.
Proof. unfold newtype. intros [[H1 H2]|(H1 & r & R & H2)]; [left|right]; (split; [auto|]); [intros T r R; rewrite <- app_assoc; auto|exists r; now rewrite <- app_assoc]. Qed.

(** seeing a branch through its parts *)
Lemma info_self c ch d : info (Branch c ch d) c = (d, None).
Proof. rewrite info_branch. replace (strip c c) with (@Some path []); auto. symmetry. apply strip_some. now rewrite app_nil_r. Qed.
Lemma info_down c ch d q : q <> [] -> info (Branch c ch d) (c ++ q) = infol ch q.
Proof. intros Q. rewrite info_branch, strip_app. now destruct q. Qed.
Lemma split_prefix c (q : path) : (exists r, q = c ++ r) \/ (forall r, q <> c ++ r).
Proof. destruct (strip c q) as [r|] eqn:E; [left; apply strip_some in E; eauto|right; now apply strip_none]. Qed.
Lemma not_above_outside c (q rest : path) : (forall r, q <> c ++ r) -> path_eqb q (c ++ rest) = false.
Proof. intros H. apply path_eqb_neq. auto. Qed.

Lemma grow_branch c ch d ch' rest ty k : rest <> [] ->
  grown (infol ch) (infol ch') rest ty k -> grown (info (Branch c ch d)) (info (Branch c ch' d)) (c ++ rest) ty k.
Proof.
  intros R (t & T & G). exists t. split.
  - apply newtype_shift. unfold newtype in *. destruct T as [[T1 T2]|(T1 & r & T2 & T3)]; [left|right]; (split; [auto|]).
    + intros T r X. rewrite info_down; auto. now destruct rest.
    + exists r. split; auto. rewrite info_down; auto. now destruct rest.
  - intros q Q. destruct (split_prefix c q) as [(r & ->)|O].
    + rewrite upd_shift. destruct (nil_or r) as [->|N].
      * rewrite app_nil_r, info_self. unfold upd. destruct rest; [easy|]. cbn. now rewrite app_nil_r, info_self.
      * rewrite info_down, G by auto. unfold upd. destruct path_eqb; auto. rewrite info_down; auto.
    + rewrite (info_other (Branch c ch' d)) by auto. unfold upd. rewrite not_above_outside by auto. rewrite info_other by auto. now destruct above.
Qed.

Lemma grown_list_replace ch1 x x' ch2 p ty k : wfl (ch1 ++ x :: ch2) -> wf x' -> head x' = head x -> p <> [] -> hd Root p = head x ->
  grown (info x) (info x') p ty k -> wfl (ch1 ++ x' :: ch2) /\ grown (infol (ch1 ++ x :: ch2)) (infol (ch1 ++ x' :: ch2)) p ty k.
Proof.
  intros [S W] W' H P HP (t & T & G).
  assert (HH : map head (ch1 ++ x' :: ch2) = map head (ch1 ++ x :: ch2)) by (rewrite !map_app; cbn; congruence).
  assert (S' : StronglySorted hlt (ch1 ++ x' :: ch2)).
  { clear - S H. induction ch1 as [|a l IH]; cbn in *.
    - inversion_clear S as [|? ? S1 S2]. constructor; auto. eapply Forall_impl; [|exact S2]. unfold hlt. cbn. intros b. now rewrite H.
    - inversion_clear S as [|? ? S1 S2]. constructor; auto. apply Forall_app in S2 as [S2 S3]. inversion_clear S3. apply Forall_app. split; auto. constructor; auto. unfold hlt in *. now rewrite H. }
  assert (F' : Forall wf (ch1 ++ x' :: ch2)) by (apply Forall_app in W as [W1 W2]; inversion_clear W2; apply Forall_app; auto).
  split; [now split|].
  assert (I1 : forall q, q <> [] -> hd Root q = head x -> infol (ch1 ++ x :: ch2) q = info x q).
  { intros q Q HQ. apply infol_in; auto using sorted_heads. apply in_or_app. right. now left. }
  assert (I2 : forall q, q <> [] -> hd Root q = head x -> infol (ch1 ++ x' :: ch2) q = info x' q).
  { intros q Q HQ. apply infol_in; auto using sorted_heads; [|congruence]. apply in_or_app. right. now left. }
  assert (I3 : forall q, q <> [] -> hd Root q <> head x -> infol (ch1 ++ x' :: ch2) q = infol (ch1 ++ x :: ch2) q).
  { intros q Q HQ. destruct (in_dec comp_dec (hd Root q) (map head (ch1 ++ x :: ch2))) as [D|D].
    - apply in_map_iff in D as (n & E & I). rewrite (infol_in (ch1 ++ x' :: ch2) n), (infol_in (ch1 ++ x :: ch2) n); auto using sorted_heads.
      apply in_app_or in I as [I|[->|I]]; [apply in_or_app; auto|congruence|apply in_or_app; right; now right].
    - rewrite !infol_notin; auto. now rewrite HH. }
  exists t. split.
  - unfold newtype in *. assert (K : forall r, infol (ch1 ++ x :: ch2) (p ++ r) = info x (p ++ r)) by (intros r; apply I1; now destruct p).
    destruct T as [[T1 T2]|(T1 & r & T2 & T3)]; [left|right]; (split; [auto|]); [intros T r R; rewrite K; auto|exists r; rewrite K; auto].
  - intros q Q. destruct (comp_dec (hd Root q) (head x)) as [D|D].
    + rewrite I2, G by auto. unfold upd. now rewrite I1.
    + rewrite I3 by auto. unfold upd. replace (path_eqb q p) with false by (symmetry; apply path_eqb_neq; intros ->; congruence).
      replace (above q p) with false; auto. symmetry. apply above_false. intros (r & R & ->). apply D. rewrite <- HP. now destruct q.
Qed.

(** a new node among others *)
Lemma grown_list_new ch n p ty k : wfl ch -> wf n -> head n = hd Root p -> p <> [] -> ~ In (head n) (map head ch) ->
  (forall q, q <> [] -> info n q = if path_eqb q p then (Some k, match ty with Dir => None | _ => Some ty end) else (None, None)) ->
  wfl (sort (ch ++ [n])) /\ grown (infol ch) (infol (sort (ch ++ [n]))) p ty k.
Proof.
  intros [S W] WN HN P NI I.
  assert (F : Forall wf (ch ++ [n])) by (apply Forall_app; auto).
  assert (ND : NoDup (map head (ch ++ [n]))).
  { rewrite map_app. cbn. apply (Permutation_NoDup (l := head n :: map head ch)); [apply Permutation_cons_append|]. constructor; auto. now apply sorted_heads. }
  split; [now apply sort_wfl|]. exists (match ty with Dir => None | _ => Some ty end). split.
  - left. split; auto. intros _ r R. apply infol_notin; auto. { now destruct p. } replace (hd Root (p ++ r)) with (head n); auto. now destruct p.
  - intros q Q. rewrite infol_sort by auto. unfold upd. destruct (comp_dec (hd Root q) (head n)) as [D|D].
    + rewrite (infol_in (ch ++ [n]) n); auto; [|apply in_or_app; right; now left]. rewrite I by auto. rewrite (infol_notin ch q); auto; [|now rewrite D].
      destruct path_eqb; auto. now destruct above.
    + replace (path_eqb q p) with false by (symmetry; apply path_eqb_neq; intros ->; congruence).
      replace (above q p) with false by (symmetry; apply above_false; intros (r & R & ->); apply D; rewrite HN; now destruct q).
      destruct (in_dec comp_dec (hd Root q) (map head ch)) as [E|E].
      * apply in_map_iff in E as (m & E & J). rewrite (infol_in (ch ++ [n]) m), (infol_in ch m); auto using sorted_heads. apply in_or_app; auto.
      * rewrite !infol_notin; auto. rewrite map_app. intros J. apply in_app_or in J as [J|[J|[]]]; auto.
Qed.

Lemma insert_roots_find l p ty k : Forall wf l -> p <> [] ->
  match insert_roots l p ty k with
  | None => ~ In (hd Root p) (map head l)
  | Some r => exists l1 x l2, l = l1 ++ x :: l2 /\ head x = hd Root p /\
              match insert_into x p ty k, r with
              | inl (x', i), inl (l', j) => l' = l1 ++ x' :: l2 /\ i = j
              | inr e, inr e' => e = e'
              | _, _ => False
              end
  end.
Proof.
  intros W P. destruct p as [|y p]; [easy|]. induction W as [|x r W F IH]; cbn [insert_roots]; [easy|].
  rewrite hcp_eq by now apply wf_component. destruct (comp_eqb (head x) y) eqn:E.
  - apply comp_eqb_eq in E. exists [], x, r. repeat split; auto. destruct insert_into as [[x' i]|e]; auto.
  - destruct (insert_roots r (y :: p) ty k) as [[[l' j]|e]|].
    + destruct IH as (l1 & x1 & l2 & -> & H & G). exists (x :: l1), x1, l2. repeat split; auto. destruct insert_into as [[x' i]|e]; [|easy]. destruct G as [-> ->]. easy.
    + destruct IH as (l1 & x1 & l2 & -> & H & G). exists (x :: l1), x1, l2. repeat split; auto.
    + cbn. intros [H|H]; [|auto]. apply comp_eqb_neq in E. easy.
Qed.

Definition ins_ok (n : node) : Prop := wf n -> forall p ty k n' i, p <> [] -> head n = hd Root p -> insert_into n p ty k = inl (n', i) ->
  wf n' /\ head n' = head n /\ grown (info n) (info n') p ty k.
Lemma insert_list l p ty k : Forall ins_ok l -> wfl l -> p <> [] -> forall l' i, insert_roots l p ty k = Some (inl (l', i)) ->
  wfl l' /\ map head l' = map head l /\ grown (infol l) (infol l') p ty k.
Proof.
  intros H [S W] P l' i E. pose proof (insert_roots_find l p ty k W P) as F. rewrite E in F. destruct F as (l1 & x & l2 & -> & HX & F).
  destruct (insert_into x p ty k) as [[x' j]|e] eqn:EI; [|easy]. destruct F as [-> ->].
  assert (IX : In x (l1 ++ x :: l2)) by (apply in_or_app; right; now left).
  rewrite Forall_forall in H. destruct (H x IX) with (p := p) (ty := ty) (k := k) (n' := x') (i := i) as (W' & H' & G); auto.
  { rewrite Forall_forall in W. auto. }
  destruct (grown_list_replace l1 x x' l2 p ty k) as [K1 K2]; auto; [now split|]. repeat split; try apply K1; auto. rewrite !map_app. cbn. congruence.
Qed.


Lemma wfl_one x : wf x -> wfl [x].
Proof. intros W. split; repeat constructor; auto. Qed.
Lemma infol_one x q : wf x -> q <> [] -> infol [x] q = info x q.
Proof.
  intros W Q. destruct (comp_dec (hd Root q) (head x)) as [D|D].
  - apply infol_in; cbn; auto. repeat constructor. easy.
  - rewrite infol_notin; cbn; auto; [|intros [H|[]]; congruence]. symmetry. destruct q as [|y q]; [easy|]. apply info_head; [now apply wf_component|cbn in D; congruence].
Qed.
Lemma ancestor_ok n p r ty k : wf n -> p <> [] -> r <> [] -> component n = p ++ r ->
  wf (Branch p [take n p] (Some k)) /\ head (Branch p [take n p] (Some k)) = head n /\ grown (info n) (info (Branch p [take n p] (Some k))) p ty k.
Proof.
  intros W P R C. assert (WT : wf (take n p)) by (eapply wf_take; eauto). split; [|split].
  - apply wf_branch. destruct (wfl_one _ WT). repeat split; auto. easy.
  - rewrite (head_app n p r) by auto. unfold head. cbn. easy.
  - exists None. split.
    + right. split; auto. destruct (has_entry n W) as (q & Q). rewrite C, <- app_assoc in Q. exists (r ++ q). split; auto. now destruct r.
    + intros q Q. unfold upd. destruct (split_prefix p q) as [(s & ->)|O].
      * destruct (nil_or s) as [->|S].
        -- rewrite app_nil_r, info_self, path_eqb_refl. easy.
        -- rewrite info_down, infol_one, (info_take n p r) by auto. replace (path_eqb (p ++ s) p) with false.
           2:{ symmetry. apply path_eqb_neq. intros E. rewrite <- (app_nil_r p) in E at 2. now apply app_inv_head in E. }
           replace (above (p ++ s) p) with false; auto. symmetry. apply above_false. intros (x & X & E). rewrite <- (app_nil_r p), <- !app_assoc in E at 1. apply app_inv_head in E. destruct s; easy.
      * rewrite info_other by auto. rewrite (info_other n) by (intros s E; rewrite C, <- app_assoc in E; now apply O in E).
        replace (path_eqb q p) with false by (symmetry; apply path_eqb_neq; intros ->; apply (O []); now rewrite app_nil_r). now destruct above.
Qed.
Lemma partial_ok n c x a y b ty k : wf n -> c <> [] -> component n = c ++ x :: a -> x <> y ->
  let n' := Branch c (sort [take n c; new_node (y :: b) ty k]) None in
  wf n' /\ head n' = head n /\ grown (info n) (info n') (c ++ y :: b) ty k.
Proof.
  intros W C E D n'. assert (WT : wf (take n c)) by (eapply wf_take; eauto; easy).
  destruct (grown_list_new [take n c] (new_node (y :: b) ty k) (y :: b) ty k) as [[K1 K2] G].
  - now apply wfl_one.
  - now apply wf_new.
  - unfold head. now rewrite component_new.
  - easy.
  - unfold head. rewrite component_new. cbn. rewrite (component_take n c (x :: a)) by auto. cbn. intros [H|[]]; congruence.
  - intros q _. now apply info_new.
  - cbn [app] in *. subst n'. split; [|split].
    + apply wf_branch. repeat split; auto. intros _ H. pose proof (sort_perm [take n c; new_node (y :: b) ty k]) as P. rewrite H in P. apply Permutation_nil in P. easy.
    + rewrite (head_app n c (x :: a)) by auto. reflexivity.
    + destruct G as (t & T & G). exists t. split.
      * apply newtype_shift. unfold newtype in *. assert (J : forall r, infol [take n c] ((y :: b) ++ r) = info n (c ++ (y :: b) ++ r)).
        { intros r. rewrite infol_one by easy. now apply (info_take n c (x :: a)). }
        destruct T as [[T1 T2]|(T1 & r & T2 & T3)]; [left|right]; (split; [auto|]).
        -- intros T r R. rewrite <- J. auto.
        -- exists r. rewrite <- J. auto.
      * intros q Q. destruct (split_prefix c q) as [(s & ->)|O].
        -- rewrite upd_shift. destruct (nil_or s) as [->|S].
           ++ rewrite app_nil_r, info_self. unfold upd. cbn. rewrite app_nil_r. rewrite info_other; auto. intros r H. rewrite E, <- app_assoc in H.
              rewrite <- (app_nil_r c) in H at 1. now apply app_inv_head in H.
           ++ rewrite info_down, G by auto. unfold upd. rewrite infol_one, (info_take n c (x :: a)) by auto. easy.
        -- rewrite info_other by auto. unfold upd. rewrite not_above_outside by auto. rewrite (info_other n); [now destruct above|].
           intros r H. rewrite E, <- app_assoc in H. now apply O in H.
Qed.

Lemma info_leaf_app c ty d r : r <> [] -> info (Leaf c ty d) (c ++ r) = (None, None).
Proof. intros R. rewrite info_leaf. replace (path_eqb (c ++ r) c) with false; auto. symmetry. apply path_eqb_neq. intros E. rewrite <- (app_nil_r c) in E at 2. now apply app_inv_head in E. Qed.
Lemma leaf_exact c ty0 d ty k : c <> [] -> grown (info (Leaf c ty0 d)) (info (new_node c ty k)) c ty k.
Proof.
  intros C. exists (match ty with Dir => None | _ => Some ty end). split.
  - left. split; auto. intros _ r R. now apply info_leaf_app.
  - intros q Q. rewrite info_new by auto. unfold upd. rewrite info_leaf. destruct path_eqb eqn:E; auto. now destruct above.
Qed.
Lemma leaf_child c ty0 d rest ty k : c <> [] -> rest <> [] ->
  grown (info (Leaf c ty0 d)) (info (Branch c [new_node rest ty k] d)) (c ++ rest) ty k.
Proof.
  intros C R. pose proof (wf_new rest ty k R) as W. exists (match ty with Dir => None | _ => Some ty end). split.
  - left. split; auto. intros _ r X. rewrite <- app_assoc. apply info_leaf_app. now destruct rest.
  - intros q Q. destruct (split_prefix c q) as [(s & ->)|O].
    + rewrite upd_shift. destruct (nil_or s) as [->|S].
      * rewrite app_nil_r, info_self. unfold upd. destruct rest; [easy|]. cbn. now rewrite app_nil_r, info_leaf, path_eqb_refl.
      * rewrite info_down, infol_one, info_new by auto. unfold upd. rewrite info_leaf_app by auto. destruct path_eqb; auto. now destruct above.
    + rewrite info_other by auto. unfold upd. rewrite not_above_outside by auto. rewrite info_other by auto. now destruct above.
Qed.
Lemma branch_exact c ch d k : c <> [] -> wf (Branch c ch d) -> grown (info (Branch c ch d)) (info (Branch c ch (Some k))) c Dir k.
Proof.
  intros C W. exists None. split; [left; easy|]. intros q Q. unfold upd. destruct (split_prefix c q) as [(s & ->)|O].
  - destruct (nil_or s) as [->|S].
    + now rewrite app_nil_r, info_self, path_eqb_refl.
    + rewrite !info_down by auto. replace (path_eqb (c ++ s) c) with false.
      2:{ symmetry. apply path_eqb_neq. intros E. rewrite <- (app_nil_r c) in E at 2. now apply app_inv_head in E. }
      replace (above (c ++ s) c) with false; auto. symmetry. apply above_false. intros (x & X & E). rewrite <- (app_nil_r c), <- !app_assoc in E at 1. apply app_inv_head in E. destruct s; easy.
  - rewrite !info_other by auto. replace (path_eqb q c) with false by (symmetry; apply path_eqb_neq; intros ->; apply (O []); now rewrite app_nil_r). now destruct above.
Qed.

Lemma insert_into_ok n : ins_ok n.
Proof.
  induction n as [c ty0 d|c ch d IH] using node_ind'; intros W p ty k n' i P HP E; pose proof (fun n => common_prefix_spec n p) as C.
  - specialize (C (Leaf c ty0 d)). cbn [insert_into] in E. cbn [component] in C.
    assert (CN : c <> []) by (apply wf_component in W; exact W).
    destruct common_prefix as [[| | |cm]|]; [| | | |discriminate].
    + subst p. destruct (set_type (Leaf c ty0 d) ty) as [m|] eqn:ES; [|discriminate]. injection E as <- <-.
      assert (K : set_data m k = new_node c ty k) by (destruct ty; cbn in ES; injection ES as <-; reflexivity). rewrite K.
      split; [now apply wf_new|]. split; [unfold head; now rewrite component_new|now apply leaf_exact].
    + destruct C as (r & R & C). injection E as <- <-. exact (ancestor_ok (Leaf c ty0 d) p r ty k W P R C).
    + destruct C as (r & R & C). subst p. cbn [component] in E. rewrite stripped_app in E. destruct ty0; [|discriminate|cbn in W; tauto]. injection E as <- <-.
      split; [|split; [reflexivity|now apply leaf_child]]. apply wf_branch. destruct (wfl_one _ (wf_new r ty k R)). repeat split; auto. easy.
    + destruct C as (N & x & a & y & b & H1 & H2 & D). subst p. rewrite stripped_app in E. injection E as <- <-. exact (partial_ok (Leaf c ty0 d) cm x a y b ty k W N H1 D).
  - specialize (C (Branch c ch d)). cbn [component] in C. pose proof W as WB. apply wf_branch in WB as (CN & DN & S & F).
    destruct (common_prefix (Branch c ch d) p) as [[| | |cm]|] eqn:EC.
    + subst p. cbn [insert_into] in E. rewrite EC in E. destruct ty; try discriminate. cbn in E. injection E as <- <-.
      split; [|split; [reflexivity|now apply branch_exact]]. apply wf_branch. repeat split; auto. easy.
    + destruct C as (r & R & C). cbn [insert_into] in E. rewrite EC in E. injection E as <- <-. exact (ancestor_ok (Branch c ch d) p r ty k W P R C).
    + destruct C as (r & R & C). subst p. rewrite insert_into_branch in E by auto.
      destruct (insert_roots ch r ty k) as [[[ch' j]|e]|] eqn:EI; [|discriminate|]; injection E as <- <-.
      * destruct (insert_list ch r ty k IH (conj S F) R _ _ EI) as ([S' F'] & HH & G).
        split; [|split; [reflexivity|now apply grow_branch]]. apply wf_branch. repeat split; auto. intros DD ->. apply DN in DD. destruct ch; easy.
      * pose proof (insert_roots_find ch r ty k F R) as NI. rewrite EI in NI.
        destruct (grown_list_new ch (new_node r ty k) r ty k) as ([S' F'] & G); auto.
        -- now split.
        -- now apply wf_new.
        -- unfold head. now rewrite component_new.
        -- unfold head. now rewrite component_new.
        -- intros q _. now apply info_new.
        -- split; [|split; [reflexivity|now apply grow_branch]]. apply wf_branch. repeat split; auto. intros _ H.
           pose proof (sort_perm (ch ++ [new_node r ty k])) as PP. rewrite H in PP. apply Permutation_nil in PP. now destruct ch.
    + destruct C as (N & x & a & y & b & H1 & H2 & D). cbn [insert_into] in E. rewrite EC in E. subst p. rewrite stripped_app in E. injection E as <- <-. exact (partial_ok (Branch c ch d) cm x a y b ty k W N H1 D).
    + cbn [insert_into] in E. rewrite EC in E. discriminate.
Qed.

(** ** when an insertion is refused *)
Definition verdict (f : path -> option nat * option ptype) (p : path) (ty : ptype) (e : option insert_error) : Prop :=
  match e with
  | None => ty <> Dir -> fst (f p) <> None -> snd (f p) <> None
  | Some PathTypeConflict => ty <> Dir /\ snd (f p) = None /\ (fst (f p) <> None \/ exists r, r <> [] /\ fst (f (p ++ r)) <> None)
  | Some Unreachable => exists q, q <> [] /\ below q p /\ snd (f q) = Some File
  | Some Abort_ => False
  end.
Definition outcome {A} (r : A + insert_error) : option insert_error := match r with inl _ => None | inr e => Some e end.
Lemma below_app c q p : below q p -> below (c ++ q) (c ++ p).
Proof. intros (r & R & ->). exists r. now rewrite app_assoc. Qed.
Lemma verdict_shift f c p ty e : verdict (fun x => f (c ++ x)) p ty e -> verdict f (c ++ p) ty e.
Proof.
  destruct e as [[| |]|]; cbn; auto.
  - setoid_rewrite <- app_assoc. auto.
  - intros (q & Q & B & H). exists (c ++ q). repeat split; auto using below_app. now destruct c.
Qed.
Lemma verdict_ext f g p ty e : p <> [] -> (forall q, q <> [] -> hd Root q = hd Root p -> f q = g q) -> verdict f p ty e -> verdict g p ty e.
Proof.
  intros P H. assert (HP : f p = g p) by auto. assert (HR : forall r, f (p ++ r) = g (p ++ r)) by (intros r; apply H; now destruct p).
  destruct e as [[| |]|]; cbn; auto; rewrite <- ?HP; auto.
  - intros (A & B & [C|(r & R & C)]); repeat split; auto. right. exists r. now rewrite <- HR.
  - intros (q & Q & B & S). exists q. repeat split; auto. rewrite <- H; auto. destruct B as (r & R & ->). now destruct q.
Qed.
Definition ver_ok (n : node) : Prop := wf n -> forall p ty k, p <> [] -> head n = hd Root p -> verdict (info n) p ty (outcome (insert_into n p ty k)).
Lemma verdict_list l p ty k : Forall ver_ok l -> wfl l -> p <> [] ->
  verdict (infol l) p ty (match insert_roots l p ty k with Some r => outcome r | None => None end).
Proof.
  intros H [S W] P. pose proof (insert_roots_find l p ty k W P) as F. destruct (insert_roots l p ty k) as [r|].
  - destruct F as (l1 & x & l2 & E & HX & F). assert (IX : In x l) by (rewrite E; apply in_or_app; right; now left).
    rewrite Forall_forall in H, W. pose proof (H x IX (W x IX) p ty k P HX) as V. replace (outcome r) with (outcome (insert_into x p ty k)).
    + eapply verdict_ext; [exact P| |exact V]. intros q Q HQ. symmetry. apply infol_in; auto using sorted_heads; [now apply Forall_forall|congruence].
    + destruct insert_into as [[x' i]|e], r as [[l' j]|e']; cbn; auto; try easy; congruence.
  - cbn. rewrite infol_notin by auto. cbn. congruence.
Qed.
Lemma insert_into_verdict n : ver_ok n.
Proof.
  induction n as [c ty0 d|c ch d IH] using node_ind'; intros W p ty k P HP; pose proof (fun n => common_prefix_spec n p) as C.
  - specialize (C (Leaf c ty0 d)). cbn [component] in C. assert (CN : c <> []) by (apply wf_component in W; exact W). destruct (common_prefix (Leaf c ty0 d) p) as [[| | |cm]|] eqn:EC; cbn [insert_into]; rewrite EC.
    + subst p. replace (outcome _) with (@None insert_error) by (destruct ty; reflexivity). cbn. rewrite info_leaf, path_eqb_refl. easy.
    + destruct C as (r & R & C). cbn. rewrite info_other; [cbn; congruence|]. cbn. intros s E. rewrite C, <- app_assoc in E. rewrite <- (app_nil_r p) in E at 1. apply app_inv_head in E. destruct r; easy.
    + destruct C as (r & R & C). cbn in W. destruct ty0; [| |tauto].
      * cbn. rewrite C, info_leaf_app by auto. easy.
      * cbn. exists c. repeat split; auto; [exists r; auto|]. now rewrite info_leaf, path_eqb_refl.
    + destruct C as (N & x & a & y & b & H1 & H2 & D). cbn. rewrite info_other; [cbn; congruence|]. cbn. intros s E. rewrite H1, H2, <- app_assoc in E. apply app_inv_head in E. cbn in E. congruence.
    + destruct C as (x & a & y & b & H1 & H2 & D). unfold head in HP. cbn [component] in HP. rewrite H1, H2 in HP. easy.
  - specialize (C (Branch c ch d)). cbn [component] in C. pose proof W as WB. apply wf_branch in WB as (CN & DN & S & F).
    destruct (common_prefix (Branch c ch d) p) as [[| | |cm]|] eqn:EC.
    + subst p. cbn [insert_into]. rewrite EC.
      assert (K : ty <> Dir -> verdict (info (Branch c ch d)) c ty (Some PathTypeConflict)).
      { intros T. cbn. rewrite info_self. cbn. repeat split; auto. destruct d as [kd|]; [now left|right].
        destruct (has_entry _ W) as (q & Q). cbn [component] in Q. destruct (nil_or q) as [->|NQ]; [rewrite app_nil_r, info_self in Q; easy|eauto]. }
      destruct ty; cbn; try (apply K; easy). easy.
    + destruct C as (r & R & C). cbn [insert_into]. rewrite EC. cbn. rewrite info_other; [cbn; congruence|]. cbn. intros s E. rewrite C, <- app_assoc in E. rewrite <- (app_nil_r p) in E at 1. apply app_inv_head in E. destruct r; easy.
    + destruct C as (r & R & C). subst p. rewrite insert_into_branch by auto. apply verdict_shift.
      pose proof (verdict_list ch r ty k IH (conj S F) R) as V.
      assert (V' : verdict (fun x => info (Branch c ch d) (c ++ x)) r ty (match insert_roots ch r ty k with Some r => outcome r | None => None end)).
      { eapply verdict_ext; [exact R| |exact V]. intros q Q _. cbn. now rewrite info_down. }
      destruct (insert_roots ch r ty k) as [[[ch' j]|e]|]; exact V'.
    + destruct C as (N & x & a & y & b & H1 & H2 & D). cbn [insert_into]. rewrite EC. cbn. rewrite info_other; [cbn; congruence|]. cbn. intros s E. rewrite H1, H2, <- app_assoc in E. apply app_inv_head in E. cbn in E. congruence.
    + destruct C as (x & a & y & b & H1 & H2 & D). unfold head in HP. cbn [component] in HP. rewrite H1, H2 in HP. easy.
Qed.

(** ** the roots *)
Lemma all_ok (l : list node) : Forall ins_ok l /\ Forall ver_ok l.
Proof. split; apply Forall_forall; intros n _; [apply insert_into_ok|apply insert_into_verdict]. Qed.
Lemma new_root_split p x : p <> [] -> length p <> 1 -> exists a y, p = a ++ [y] /\ a <> [] /\
  (match rev p with [] => [] | x :: _ => [x] end) = [y] /\ (match p with [Root] => p | _ => removelast p end) = a /\ hd x p = hd x a.
Proof.
  intros P L. destruct (exists_last P) as (a & y & ->). assert (A : a <> []) by (intros ->; now apply L).
  exists a, y. rewrite rev_app_distr. cbn. rewrite removelast_last. destruct a as [|[| |s] [|z a]]; cbn; repeat split; auto; easy.
Qed.
Lemma new_root_ok p ty k : p <> [] -> (length p = 1 -> ty = Dir) ->
  wf (new_root p ty k) /\ head (new_root p ty k) = hd Root p /\
  forall q, q <> [] -> info (new_root p ty k) q = if path_eqb q p then (Some k, match ty with Dir => None | _ => Some ty end) else (None, None).
Proof.
  intros P L. destruct ty as [| |].
  3:{ change (new_root p Dir k) with (new_node p Dir k). split; [now apply wf_new|]. split; [reflexivity|]. intros q _. rewrite info_new by auto. easy. }
  all: assert (L1 : length p <> 1) by (intros H; now apply L in H); destruct (new_root_split p Root P L1) as (a & y & E & A & R1 & R2 & R3); unfold new_root; rewrite R1, R2;
    (split; [apply wf_branch; repeat split; [exact A|easy|repeat constructor|repeat constructor; cbn; easy]|split; [unfold head; cbn; congruence|]]);
    intros q Q; destruct (split_prefix a q) as [(s & ->)|O];
    [destruct (nil_or s) as [->|S];
     [rewrite app_nil_r, info_self, E; replace (path_eqb a (a ++ [y])) with false; auto; symmetry; apply path_eqb_neq; intros H; rewrite <- (app_nil_r a) in H at 1; now apply app_inv_head in H
     |rewrite info_down, infol_one, E, path_eqb_app by (auto; cbn; easy); now rewrite info_leaf]
    |rewrite info_other, E, not_above_outside by auto; easy].
Qed.
Lemma tree_insert_ok roots p ty k : wfl roots -> p <> [] -> (length p = 1 -> ty = Dir) ->
  verdict (infol roots) p ty (outcome (tree_insert roots p ty k)) /\
  forall roots', tree_insert roots p ty k = inl roots' -> wfl roots' /\ grown (infol roots) (infol roots') p ty k.
Proof.
  intros W P L. destruct (all_ok roots) as [A1 A2]. pose proof (verdict_list roots p ty k A2 W P) as V. unfold tree_insert.
  destruct (insert_roots roots p ty k) as [[[l i]|e]|] eqn:E.
  - split; [exact V|]. intros roots' [= <-]. destruct (insert_list roots p ty k A1 W P _ _ E) as ([S' F'] & HH & G). destruct (Nat.eqb i 0); [|split; [now split|auto]].
    assert (ND : NoDup (map head l)) by now apply sorted_heads.
    split; [now apply sort_wfl|]. destruct G as (t & T & G). exists t. split; auto. intros q Q. rewrite infol_sort; auto.
  - split; [exact V|]. easy.
  - split; [exact V|]. intros roots' [= <-]. destruct W as [S F]. pose proof (insert_roots_find roots p ty k F P) as NI. rewrite E in NI.
    destruct (new_root_ok p ty k P L) as (W' & H' & I'). apply grown_list_new; auto; [now split|now rewrite H'].
Qed.

(** ** lookups *)
Lemma node_contains_info n : forall p, node_contains n p = match fst (info n p) with Some _ => true | None => false end.
Proof.
  induction n as [c ty d|c ch d IH] using node_ind'; intros p.
  - rewrite info_leaf. cbn. destruct path_eqb; auto.
  - rewrite info_branch. cbn [node_contains]. destruct (strip c p) as [[|y r]|]; auto. unfold infol, pick.
    induction IH as [|x l H _ IHl]; cbn [find]; auto. destruct has_common_prefix; auto.
Qed.
Lemma info_hcp n p : component n <> [] -> has_common_prefix n p = false -> info n p = (None, None).
Proof.
  intros C H. destruct p as [|y p]; [unfold has_common_prefix in H; destruct (component n); discriminate|]. rewrite hcp_eq in H by auto.
  apply info_head; auto. now apply comp_eqb_neq.
Qed.
Lemma pick_none l p : (forall z, In z l -> has_common_prefix z p = false) -> pick l p = None.
Proof. unfold pick. induction l as [|z l IH]; cbn; intros H; auto. rewrite H by auto. auto. Qed.
(** among well-formed roots only one has a part in common with a path *)
Lemma pick_unique x l p : wfl (x :: l) -> p <> [] -> has_common_prefix x p = true -> forall z, In z l -> has_common_prefix z p = false.
Proof.
  intros [S W] P E z Z. inversion_clear W as [|? ? W1 W2]. inversion_clear S as [|? ? S' F].
  destruct p as [|y p]; [easy|]. rewrite hcp_eq in E by now apply wf_component. apply comp_eqb_eq in E. subst y.
  rewrite hcp_eq by (rewrite Forall_forall in W2; apply wf_component; auto).
  apply comp_eqb_neq. intros EZ. rewrite Forall_forall in F. apply F in Z. unfold hlt in Z. now rewrite EZ, comp_cmp_refl in Z.
Qed.
Lemma wfl_tail x l : wfl (x :: l) -> wf x /\ wfl l.
Proof. intros [S W]. inversion_clear S. inversion_clear W. split; [|split]; auto. Qed.
Lemma tree_contains_info roots p : wfl roots -> p <> [] -> tree_contains roots p = match fst (infol roots p) with Some _ => true | None => false end.
Proof.
  intros W P. unfold tree_contains, infol. induction roots as [|x l IH]; cbn; auto. destruct (wfl_tail _ _ W) as [W1 W2]. rewrite node_contains_info, IH; auto.
  unfold pick. cbn [find]. destruct (has_common_prefix x p) eqn:E; [|now rewrite info_hcp by (auto using wf_component)].
  change (find _ l) with (pick l p). rewrite pick_none by (eapply pick_unique; eauto). now destruct (fst (info x p)).
Qed.
Lemma tree_get_info roots p : wfl roots -> p <> [] -> tree_get roots p = fst (infol roots p).
Proof.
  intros W P. unfold tree_get, infol. induction roots as [|x l IH]; cbn; auto. destruct (wfl_tail _ _ W) as [W1 W2]. specialize (IH W2).
  unfold pick. cbn [find]. destruct (has_common_prefix x p) eqn:E; [|exact IH].
  change (find _ l) with (pick l p) in *. rewrite IH, pick_none by (eapply pick_unique; eauto). unfold info, info_of, ndata.
  destruct (node_get x p) as [[? ? [?|]|? ? [?|]]|]; auto.
Qed.

(** ** histories *)
Section Hist.
Context {V : Type}.
Implicit Types (h : list (ins V)) (t : ptree V).
Lemma last_value_snoc h i q : last_value (h ++ [i]) q = if path_eqb (fst (fst i)) q then Some (snd i) else last_value h q.
Proof. unfold last_value. now rewrite fold_left_app. Qed.
Lemma inserted_snoc h i q : inserted (h ++ [i]) q <-> inserted h q \/ fst (fst i) = q.
Proof. unfold inserted. rewrite map_app, in_app_iff. cbn. tauto. Qed.
Lemma inserted_as_snoc h i q ty : inserted_as (h ++ [i]) q ty <-> inserted_as h q ty \/ fst i = (q, ty).
Proof. unfold inserted_as. rewrite map_app, in_app_iff. cbn. tauto. Qed.
Lemma inserted_iff h q : inserted h q <-> exists ty, inserted_as h q ty.
Proof.
  unfold inserted, inserted_as. setoid_rewrite in_map_iff. split.
  - intros ([[a b] v] & E & I). cbn in E. subst. exists b. now exists (q, b, v).
  - intros (ty & [[a b] v] & E & I). cbn in E. injection E as -> ->. now exists (q, ty, v).
Qed.
Lemma last_value_none h q : last_value h q = None <-> ~ inserted h q.
Proof.
  induction h as [|i h IH] using rev_ind; [unfold inserted; cbn; tauto|]. rewrite last_value_snoc, inserted_snoc.
  destruct (path_eqb (fst (fst i)) q) eqn:E; [apply path_eqb_eq in E; split; [easy|tauto]|]. apply path_eqb_neq in E. tauto.
Qed.

Record Inv h t : Prop := {
  i_wf : wfl (roots t);
  i_data : forall q, q <> [] -> match fst (infol (roots t) q) with None => last_value h q = None
                                | Some k => nth_error (values t) k = last_value h q /\ last_value h q <> None end;
  i_leaf : forall q ty, q <> [] -> snd (infol (roots t) q) = Some ty -> inserted_as h q ty /\ ~ inserted_as h q Dir /\ forall p, inserted h p -> ~ below q p;
  i_branch : forall q, q <> [] -> fst (infol (roots t) q) <> None -> snd (infol (roots t) q) = None ->
             inserted_as h q Dir \/ exists p, inserted h p /\ below q p }.
Lemma Inv_new : Inv [] new_tree.
Proof. split; cbn; try easy. repeat constructor. Qed.
Lemma i_some h t q : Inv h t -> q <> [] -> (fst (infol (roots t) q) <> None <-> inserted h q).
Proof.
  intros I Q. pose proof (i_data _ _ I q Q) as D. destruct (fst (infol (roots t) q)) as [k|].
  - destruct D as [_ D]. split; [|easy]. intros _. destruct (last_value h q) eqn:E; [|easy]. clear D.
    assert (X : ~ ~ inserted h q) by (intros N; apply last_value_none in N; congruence).
    unfold inserted in *. destruct (in_dec (fun a b => (if path_eqb a b as x return path_eqb a b = x -> _ then fun e => left (proj1 (path_eqb_eq a b) e) else fun e => right (proj1 (path_eqb_neq a b) e)) eq_refl) q (map (fun i => fst (fst i)) h)); tauto.
  - apply last_value_none in D. split; [easy|tauto].
Qed.
Lemma Inv_step h t p ty v : Inv h t -> p <> [] -> (length p = 1 -> ty = Dir) ->
  let '(t', e) := try_insert t p ty v in
  Inv (match e with None => h ++ [(p, ty, v)] | Some _ => h end) t' /\ verdict (infol (roots t)) p ty e.
Proof.
  intros I P L. pose proof (i_some h t) as IS. unfold try_insert. destruct (tree_insert_ok (roots t) p ty (length (values t)) (i_wf _ _ I) P L) as [VD G].
  destruct (tree_insert (roots t) p ty (length (values t))) as [rs|e]; cbn [outcome] in VD; (split; [|exact VD]).
  - destruct (G rs eq_refl) as (W & ty' & T & U). clear G. split; cbn [roots values]; auto.
    + intros q Q. rewrite U by auto. unfold upd. rewrite last_value_snoc. cbn [fst snd]. rewrite (path_eqb_sym p q).
      pose proof (i_data _ _ I q Q) as D. destruct (path_eqb q p); cbn [fst].
      * rewrite nth_error_app2, Nat.sub_diag by auto. easy.
      * assert (K : match fst (infol (roots t) q) with Some k => nth_error (values t ++ [v]) k = last_value h q /\ last_value h q <> None | None => last_value h q = None end).
        { destruct (fst (infol (roots t) q)) as [k|]; auto. destruct D as [D1 D2]. split; auto. rewrite nth_error_app1; auto. apply nth_error_Some. congruence. }
        destruct (above q p); exact K.
    + intros q tq Q. rewrite U by auto. unfold upd. rewrite !inserted_as_snoc. cbn [fst].
      destruct (path_eqb q p) eqn:E.
      * apply path_eqb_eq in E. subst q. cbn [snd]. intros ->. destruct T as [[T1 T2]|[T1 _]]; [|easy].
        assert (NB : forall x, inserted h x -> ~ below p x).
        { intros x X (r & R & ->). specialize (T2 ltac:(easy) r R). apply (IS (p ++ r) I) in X; [|now destruct p]. now rewrite T2 in X. }
        assert (TD : ty <> Dir /\ tq = ty) by (destruct ty; [split; congruence..|easy]). destruct TD as [TD ->].
        repeat split; auto.
        -- intros [X|X]; [|congruence]. assert (XI : inserted h p) by (apply inserted_iff; eauto). apply (IS p I P) in XI. cbn in VD. specialize (VD TD XI).
           destruct (snd (infol (roots t) p)) as [t0|] eqn:E0; [|easy]. apply (i_leaf _ _ I p t0 P) in E0. tauto.
        -- intros x X. apply inserted_snoc in X as [X|X]; auto. cbn in X. subst x. intros (r & R & X). rewrite <- (app_nil_r p) in X at 1. apply app_inv_head in X. congruence.
      * destruct (above q p) eqn:EA; [easy|]. intros H. destruct (i_leaf _ _ I q tq Q H) as (H1 & H2 & H3). repeat split; auto.
        -- intros [X|X]; auto. injection X as -> ->. now rewrite path_eqb_refl in E.
        -- intros x X. apply inserted_snoc in X as [X|X]; auto. cbn in X. subst x. now apply above_false.
    + intros q Q. rewrite U by auto. unfold upd. rewrite inserted_as_snoc. cbn [fst].
      assert (K : fst (infol (roots t) q) <> None -> snd (infol (roots t) q) = None -> (inserted_as h q Dir \/ (p, ty) = (q, Dir)) \/ (exists p0, inserted (h ++ [(p, ty, v)]) p0 /\ below q p0)).
      { intros K1 K2. destruct (i_branch _ _ I q Q K1 K2) as [K|(x & X1 & X2)]; auto. right. exists x. rewrite inserted_snoc. auto. }
      destruct (path_eqb q p) eqn:E.
      * apply path_eqb_eq in E. subst q. cbn [fst snd]. intros _ ->. destruct T as [[T1 T2]|(T1 & r & R & T2)].
        -- left. right. destruct ty; [discriminate..|reflexivity].
        -- right. exists (p ++ r). split; [|exists r; auto]. apply inserted_snoc. left. apply (IS (p ++ r) I); auto. now destruct p.
      * destruct (above q p) eqn:EA; cbn [fst snd]; auto. intros _ _. right. exists p. rewrite inserted_snoc. split; auto. now apply above_iff.
  - split; cbn [roots values]; try apply I.
    intros q Q. pose proof (i_data _ _ I q Q) as D. destruct (fst (infol (roots t) q)) as [k|]; auto. destruct D as [D1 D2]. split; auto.
    rewrite nth_error_app1; auto. apply nth_error_Some. congruence.
Qed.
Lemma run_from_inv h : well_formed h -> forall h0 t, Inv h0 t -> Inv (h0 ++ fst (run_from t h)) (snd (run_from t h)).
Proof.
  induction h as [|[[p ty] v] h IH]; intros W h0 t I; cbn; [now rewrite app_nil_r|].
  destruct (W p ty) as [[P _] L]; [now left|]. pose proof (Inv_step h0 t p ty v I P L) as S. destruct (try_insert t p ty v) as [t' e]. destruct S as [S _].
  specialize (IH (fun a b H => W a b (or_intror H)) _ _ S). destruct (run_from t' h) as [ok t'']. cbn in *. destruct e; auto. now rewrite <- app_assoc in IH.
Qed.
Lemma run_inv h : well_formed h -> Inv (fst (run h)) (snd (run h)).
Proof. intros W. apply (run_from_inv h W [] new_tree Inv_new). Qed.

(** nothing is refused in a settled history *)
Lemma run_from_settled h : forall h0 t, well_formed h -> settled (h0 ++ h) -> Inv h0 t -> fst (run_from t h) = h.
Proof.
  induction h as [|[[p ty] v] h IH]; intros h0 t W S I; cbn; auto.
  destruct (W p ty) as [[P _] L]; [now left|]. pose proof (Inv_step h0 t p ty v I P L) as ST. destruct (try_insert t p ty v) as [t' e]. destruct ST as [ST VD].
  assert (HP : inserted_as (h0 ++ (p, ty, v) :: h) p ty) by (unfold inserted_as; rewrite map_app; apply in_or_app; right; now left).
  assert (HI : inserted (h0 ++ (p, ty, v) :: h) p) by (apply inserted_iff; eauto).
  assert (M : forall q tq, inserted_as h0 q tq -> inserted_as (h0 ++ (p, ty, v) :: h) q tq) by (intros; unfold inserted_as; rewrite map_app; apply in_or_app; now left).
  assert (M' : forall q, inserted h0 q -> inserted (h0 ++ (p, ty, v) :: h) q) by (intros q X; apply inserted_iff in X as (tq & X); apply inserted_iff; eauto).
  destruct S as (S1 & S2 & S3).
  assert (E : e = None).
  { destruct e as [e|]; auto. exfalso. destruct e; cbn in VD; auto.
    - destruct VD as (T & SN & D).
      assert (TF : ty = File) by (destruct ty; auto; [now apply S1 in HP|easy]). subst ty.
      assert (X : inserted_as h0 p Dir \/ exists x, inserted h0 x /\ below p x).
      { destruct D as [D|(r & R & D)]; [now apply (i_branch _ _ I)|]. right. exists (p ++ r). split; [|exists r; auto]. apply (i_some h0 t (p ++ r) I); auto. now destruct p. }
      destruct X as [X|(x & X1 & X2)]; [apply (S2 p); auto|]. apply (S3 x p); auto.
    - destruct VD as (q & Q & B & F). apply (i_leaf _ _ I q File Q) in F. apply (S3 p q); auto. apply M. tauto. }
  subst e. specialize (IH (h0 ++ [(p, ty, v)]) t'). rewrite <- app_assoc in IH. specialize (IH (fun a b H => W a b (or_intror H)) (conj S1 (conj S2 S3)) ST).
  destruct (run_from t' h) as [ok t'']. cbn in *. congruence.
Qed.
Lemma run_settled h : well_formed h -> settled h -> fst (run h) = h.
Proof. intros W S. now apply (run_from_settled h [] new_tree W S Inv_new). Qed.
End Hist.

(** ** the nearest ancestor *)
Definition is_dir (f : path -> option nat * option ptype) (q : path) : Prop := fst (f q) <> None /\ snd (f q) = None.
Definition near (f : path -> option nat * option ptype) (p : path) (o : option (path * nat)) : Prop :=
  match o with
  | Some (q, k) => q <> [] /\ below q p /\ f q = (Some k, None) /\ forall q', q' <> [] -> below q' p -> is_dir f q' -> q' = q \/ below q' q
  | None => forall q', q' <> [] -> below q' p -> ~ is_dir f q'
  end.
Lemma prefix_cases c rest q' : below q' (c ++ rest) -> (exists s, s <> [] /\ c = q' ++ s) \/ q' = c \/ (exists s, s <> [] /\ q' = c ++ s /\ below s rest).
Proof.
  intros (r & R & E). destruct (split_prefix c q') as [(s & ->)|O].
  - rewrite <- app_assoc in E. apply app_inv_head in E. destruct (nil_or s) as [->|S]; [right; left; now rewrite app_nil_r|].
    right. right. exists s. repeat split; auto. exists r. auto.
  - left. revert q' E O. induction c as [|x c IH]; intros q' E O; [now destruct (O q')|]. destruct q' as [|y q']; [now exists (x :: c)|].
    cbn in E. injection E as <- E. destruct (IH q' E) as (s & S & H); [intros z Z; apply (O z); cbn; congruence|]. exists s. split; auto. cbn. congruence.
Qed.
Lemma near_shift c ch d rest o : c <> [] -> rest <> [] -> near (infol ch) rest o ->
  near (info (Branch c ch d)) (c ++ rest) (match o with Some (q, k) => Some (c ++ q, k) | None => match d with Some k => Some (c, k) | None => None end end).
Proof.
  intros C R N.
  assert (A : forall q', q' <> [] -> below q' (c ++ rest) -> is_dir (info (Branch c ch d)) q' -> q' = c \/ exists s, s <> [] /\ q' = c ++ s /\ below s rest /\ is_dir (infol ch) s).
  { intros q' Q B [D1 D2]. apply prefix_cases in B as [(s & S & E)|[->|(s & S & -> & B)]]; auto.
    - exfalso. apply D1. rewrite info_other; auto. cbn. intros z Z. rewrite E, <- app_assoc in Z. rewrite <- (app_nil_r q') in Z at 1. apply app_inv_head in Z. symmetry in Z. apply app_eq_nil in Z. tauto.
    - right. exists s. unfold is_dir. rewrite info_down in D1, D2 by auto. auto. }
  destruct o as [[q k]|]; cbn in *.
  - destruct N as (Q & B & F & M). repeat split.
    + now destruct c.
    + now apply below_app.
    + now rewrite info_down.
    + intros q' Q' B' D. destruct (A q' Q' B' D) as [->|(s & S & -> & B2 & D2)].
      * right. exists q. auto.
      * destruct (M s S B2 D2) as [->|B3]; auto using below_app.
  - destruct d as [k|]; cbn.
    + repeat split; auto.
      * exists rest. auto.
      * apply info_self.
      * intros q' Q' B' D. destruct (A q' Q' B' D) as [->|(s & S & -> & B2 & D2)]; auto. exfalso. eapply N; eauto.
    + intros q' Q' B' D. destruct (A q' Q' B' D) as [->|(s & S & -> & B2 & D2)]; [|eapply N; eauto]. destruct D as [D _]. now rewrite info_self in D.
Qed.
Lemma near_ext f g p o : p <> [] -> (forall q, q <> [] -> hd Root q = hd Root p -> f q = g q) -> near f p o -> near g p o.
Proof.
  intros P H. assert (HB : forall q, q <> [] -> below q p -> f q = g q) by (intros q Q (r & R & ->); apply H; auto; now destruct q).
  destruct o as [[q k]|]; cbn.
  - intros (Q & B & F & M). repeat split; auto; [now rewrite <- HB|]. intros q' Q' B' D. apply M; auto. unfold is_dir in *. now rewrite HB.
  - intros N q' Q' B' D. apply (N q' Q' B'). unfold is_dir in *. now rewrite HB.
Qed.
Lemma pjoin_app a b : a = [] \/ ~ In Root b -> pjoin a b = a ++ b.
Proof. intros [->|H]; destruct b as [|[| |] b]; cbn; auto. destruct H. now left. Qed.
Lemma nearest_go_branch c ch d p anc cand : nearest_go (Branch c ch d) p anc cand =
  match strip c p with
  | None => cand | Some [] => cand
  | Some rest => let cand' := match d with Some k => Some (pjoin anc c, k) | None => cand end in
                 match pick ch rest with Some x => nearest_go x rest (pjoin anc c) cand' | None => cand' end
  end.
Proof.
  cbn [nearest_go]. destruct (strip c p) as [[|y r]|]; auto. unfold pick. induction ch as [|x l IH]; cbn [find]; auto. destruct has_common_prefix; auto.
Qed.
Lemma pick_in l p x : pick l p = Some x -> In x l /\ has_common_prefix x p = true.
Proof. unfold pick. intros H. apply find_some in H. auto. Qed.
Lemma nearest_ok n : wf n -> forall p anc cand, p <> [] -> head n = hd Root p -> ~ In Root (tl p) -> anc = [] \/ ~ In Root p ->
  exists o, near (info n) p o /\ nearest_go n p anc cand = match o with Some (q, k) => Some (anc ++ q, k) | None => cand end.
Proof.
  induction n as [c ty d|c ch d IH] using node_ind'; intros W p anc cand P HP NR NA.
  - exists None. split; auto. cbn. intros q' Q B [D1 D2]. rewrite info_leaf in *. destruct path_eqb; easy.
  - rewrite nearest_go_branch. pose proof W as WB. apply wf_branch in WB as (CN & DN & S & F). destruct (strip c p) as [rest|] eqn:E.
    + apply strip_some in E. subst p. destruct (nil_or rest) as [->|R].
      * exists None. split; auto. rewrite app_nil_r. cbn. intros q' Q (r & RR & B) [D1 D2]. apply D1. rewrite info_other; auto. cbn. intros z Z. subst c. rewrite <- app_assoc in Z. rewrite <- (app_nil_r q') in Z at 1. apply app_inv_head in Z. symmetry in Z. apply app_eq_nil in Z. tauto.
      * assert (J : pjoin anc c = anc ++ c) by (apply pjoin_app; destruct NA as [NA|NA]; auto; right; intros I; apply NA; apply in_or_app; auto).
        assert (RN : ~ In Root rest) by (intros I; apply NR; destruct c; [easy|]; cbn; apply in_or_app; auto).
        destruct rest as [|y rest]; [easy|]. destruct (pick ch (y :: rest)) as [x|] eqn:EP.
        -- apply pick_in in EP as [IX HX]. rewrite Forall_forall in IH, F. rewrite hcp_eq in HX by now apply wf_component, F. apply comp_eqb_eq in HX.
           destruct (IH x IX (F x IX) (y :: rest) (anc ++ c) (match d with Some k => Some (anc ++ c, k) | None => cand end)) as (o & N & G); auto.
           { intros I. apply RN. now right. }
           exists (match o with Some (q, k) => Some (c ++ q, k) | None => match d with Some k => Some (c, k) | None => None end end). split.
           ++ apply near_shift; auto. eapply near_ext; [easy| |exact N]. intros q Q HQ. symmetry. apply infol_in; auto using sorted_heads; [now apply Forall_forall|]. cbn in HQ. congruence.
           ++ cbv beta iota zeta. rewrite J. etransitivity; [exact G|]. destruct o as [[q k]|]; [now rewrite app_assoc|]. now destruct d.
        -- exists (match d with Some k => Some (c, k) | None => None end). split.
           ++ apply (near_shift c ch d (y :: rest) None); auto. cbn. intros q' Q' (r & RR & EQ) [D1 D2]. apply D1. unfold infol. replace (pick ch q') with (@None node); auto. symmetry.
              apply pick_none. intros z Z. unfold pick in EP. apply find_none with (x := z) in EP; auto. rewrite Forall_forall in F. destruct q' as [|y' q']; [easy|]. cbn [app] in EQ. injection EQ as -> ->.
              rewrite hcp_eq in * by now apply wf_component, F. exact EP.
           ++ cbv zeta. rewrite J. destruct d; easy.
    + exists None. split; auto. cbn. intros q' Q B [D1 D2]. destruct B as (r & R & ->). apply D1. rewrite info_other; auto. cbn. intros z ->. rewrite <- app_assoc in E. now rewrite strip_app in E.
Qed.
Lemma tree_nearest_ok rs p : wfl rs -> p <> [] -> ~ In Root (tl p) -> near (infol rs) p (tree_nearest rs p).
Proof.
  intros W P NR. unfold tree_nearest.
  assert (K : forall l, (forall z, In z l -> has_common_prefix z p = false) -> find_map (fun r => node_nearest r p) l = None).
  { induction l as [|z l IH]; cbn; auto. intros H. unfold node_nearest. rewrite H by auto. cbn. auto. }
  destruct (pick rs p) as [x|] eqn:E.
  - pose proof (pick_in _ _ _ E) as [IX HX]. destruct W as [S F]. pose proof (proj1 (Forall_forall _ _) F x IX) as WX.
    assert (HH : head x = hd Root p) by (destruct p; [easy|]; rewrite hcp_eq in HX by (now apply wf_component); now apply comp_eqb_eq in HX).
    destruct (nearest_ok x WX p [] None P HH NR (or_introl eq_refl)) as (o & N & G).
    replace (find_map (fun r => node_nearest r p) rs) with o.
    + eapply near_ext; [exact P| |exact N]. intros q Q HQ. symmetry. apply infol_in; auto using sorted_heads. congruence.
    + assert (GX : node_nearest x p = o) by (unfold node_nearest; rewrite HX; cbn; rewrite G; destruct o as [[? ?]|]; auto).
      clear G N. revert E S F. induction rs as [|z l IH]; intros E S F; [easy|]. unfold pick in E. cbn in E. cbn [find_map]. destruct (has_common_prefix z p) eqn:HZ.
      * injection E as ->. rewrite GX. destruct o; auto. rewrite K; auto. eapply pick_unique; eauto. now split.
      * unfold node_nearest at 1. rewrite HZ. cbn. inversion_clear S. inversion_clear F. apply IH; auto. eapply pick_in. exact E.
  - assert (H : forall z, In z rs -> has_common_prefix z p = false) by (intros z Z; unfold pick in E; now apply find_none with (x := z) in E).
    rewrite K by auto. cbn. intros q Q (r & R & ->) [D _]. apply D. unfold infol. rewrite pick_none; auto. intros z Z. specialize (H z Z). destruct q as [|y q]; [easy|]. destruct W as [S F]. rewrite Forall_forall in F.
    cbn [app] in H. rewrite hcp_eq in * by now apply wf_component, F. exact H.
Qed.

(** ** iteration *)
Definition own (c : path) (d : option nat) : list (path * nat) := match d with Some k => [(c, k)] | None => [] end.
Definition pre (c : path) (e : path * nat) : path * nat := (c ++ fst e, snd e).
Fixpoint ents (n : node) : list (path * nat) :=
  match n with
  | Leaf c _ d => own c d
  | Branch c [] _ => []
  | Branch c ch d => own c d ++ map (pre c) (flat_map ents ch)
  end.
Lemma pre_pre a b l : map (pre a) (map (pre b) l) = map (pre (a ++ b)) l.
Proof. rewrite map_map. apply List.map_ext. intros [q k]. unfold pre. cbn. now rewrite app_assoc. Qed.
Lemma flat_map_map {A B C} (f : A -> list B) (g : B -> C) l : map g (flat_map f l) = flat_map (fun x => map g (f x)) l.
Proof. induction l as [|x l IH]; cbn; auto. now rewrite map_app, IH. Qed.
Lemma flat_map_ext_in {A B} (f g : A -> list B) l : (forall x, In x l -> f x = g x) -> flat_map f l = flat_map g l.
Proof. induction l as [|x l IH]; cbn; auto. intros H. rewrite H, IH; auto. Qed.
Lemma child_info c ch d x q : wf (Branch c ch d) -> In x ch -> fst (info x q) <> None -> info (Branch c ch d) (c ++ q) = info x q /\ q <> [] /\ hd Root q = head x.
Proof.
  intros W I H. apply wf_branch in W as (CN & DN & S & F). pose proof (proj1 (Forall_forall _ _) F x I) as WX. pose proof (wf_component x WX) as CX.
  assert (Q : q <> []) by (intros ->; now rewrite info_nil in H).
  assert (HQ : hd Root q = head x). { destruct q as [|y q]; [easy|]. cbn. destruct (comp_dec y (head x)) as [|D]; auto. rewrite info_head in H; auto. easy. }
  repeat split; auto. rewrite info_down by auto. apply infol_in; auto using sorted_heads.
Qed.
(** entries that may be listed below [pr]: the root only in front *)
Definition clean (pr : path) (n : node) : Prop := forall q, fst (info n q) <> None -> ~ In Root (tl q) /\ (pr = [] \/ ~ In Root q).
Lemma clean_child pr pr' c ch d x : wf (Branch c ch d) -> In x ch -> clean pr (Branch c ch d) -> clean pr' x.
Proof.
  intros W I C q H. destruct (child_info c ch d x q W I H) as (E & Q & _). rewrite <- E in H. apply C in H as [H _].
  apply wf_branch in W as (CN & _). assert (~ In Root q) by (intros J; apply H; destruct c; [easy|]; cbn; apply in_or_app; auto).
  split; auto. intros J. destruct q; auto. destruct H0. now right.
Qed.
Lemma clean_component pr n : wf n -> clean pr n -> ~ In Root (tl (component n)) /\ (pr = [] \/ ~ In Root (component n)).
Proof.
  intros W C. destruct (has_entry n W) as (q & Q). apply C in Q. pose proof (wf_component n W). destruct (component n) as [|y c]; [easy|]. cbn in *.
  destruct Q as [Q1 Q2]. split; [intros I; apply Q1, in_or_app; auto|]. destruct Q2 as [Q2|Q2]; auto. right. intros [I|I]; apply Q2; auto. right. apply in_or_app; auto.
Qed.
Lemma dfs_below max pr depth n : wf n -> clean pr n -> forall cp r, component n = cp ++ r -> cp = [] \/ r <> [] ->
  dfs max (pr ++ cp) cp depth n = map (pre pr) (filter (fun e : path * nat => match max with None => true | Some m => Nat.leb (depth + (length (fst e) - length cp)) m end) (ents n)).
Proof.
  revert pr depth. induction n as [c ty d|c ch d IH] using node_ind'; intros pr depth W C cp r E CP; pose proof (clean_component pr _ W C) as [CC1 CC2]; cbn [component] in *.
  - subst c. cbn [dfs component ents own]. rewrite stripped_app. destruct d as [k|]; [|now destruct (match max with None => _ | _ => _ end)]. cbn [filter map own fst snd].
    rewrite app_length. replace (length cp + length r - length cp) with (length r) by lia.
    replace (match max with None => true | Some m => depth + length r <=? m end) with (negb (match max with None => false | Some m => m <? depth + length r end)).
    2:{ destruct max as [m|]; auto. rewrite Nat.ltb_antisym. apply negb_involutive. }
    destruct (match max with None => _ | _ => _ end); cbn [negb]; auto. cbn. unfold pre. cbn. do 2 f_equal. rewrite pjoin_app, <- app_assoc; auto.
    destruct CC2 as [->|CC2]; [destruct CP as [->|CP]; [left; reflexivity|]|right; intros I; apply CC2, in_or_app; auto].
    destruct cp as [|z cp]; [now left|]. right. intros I. apply CC1. cbn. apply in_or_app; auto.
  - subst c. destruct ch as [|x0 l0].
    { cbn. now destruct (match max with None => _ | _ => _ end). }
    set (ch := x0 :: l0) in *. replace (dfs max (pr ++ cp) cp depth (Branch (cp ++ r) ch d)) with
      (if match max with None => false | Some m => m <? depth + length r end then [] else
       match d with Some k => [(pjoin (pr ++ cp) r, k)] | None => [] end ++ flat_map (dfs max (pjoin (pr ++ cp) r) [] (match max with None => 0 | Some _ => depth + length r end)) ch).
    2:{ cbn [dfs component]. rewrite stripped_app. unfold ch. reflexivity. }
    replace (ents (Branch (cp ++ r) ch d)) with (own (cp ++ r) d ++ map (pre (cp ++ r)) (flat_map ents ch)) by reflexivity.
    assert (J : pjoin (pr ++ cp) r = pr ++ cp ++ r).
    { rewrite pjoin_app, <- app_assoc; auto. destruct CC2 as [->|CC2]; [destruct CP as [->|CP]; [left; reflexivity|]|right; intros I; apply CC2, in_or_app; auto].
      destruct cp as [|z cp]; [now left|]. right. intros I. apply CC1. cbn. apply in_or_app; auto. }
    rewrite J. clear J. rewrite filter_app, map_app.
    assert (KO : map (pre pr) (filter (fun e : path * nat => match max with None => true | Some m => depth + (length (fst e) - length cp) <=? m end) (own (cp ++ r) d)) =
                 if match max with None => false | Some m => m <? depth + length r end then [] else match d with Some k => [(pr ++ cp ++ r, k)] | None => [] end).
    { destruct d as [k|]; cbn [own filter map fst snd]; [|now destruct (match max with None => _ | _ => _ end)]. rewrite app_length. replace (length cp + length r - length cp) with (length r) by lia.
      destruct max as [m|]; auto. rewrite Nat.ltb_antisym. now destruct (depth + length r <=? m). }
    rewrite KO. clear KO.
    assert (KC : map (pre pr) (filter (fun e : path * nat => match max with None => true | Some m => depth + (length (fst e) - length cp) <=? m end) (map (pre (cp ++ r)) (flat_map ents ch))) =
      flat_map (fun x => map (pre (pr ++ cp ++ r)) (filter (fun e : path * nat => match max with None => true | Some m => depth + length r + length (fst e) <=? m end) (ents x))) ch).
    { clear - ch. induction ch as [|x l IH]; cbn [flat_map map filter]; auto. rewrite map_app, filter_app, map_app, IH. f_equal. clear.
      induction (ents x) as [|[q k] es IH]; cbn; auto. rewrite !app_length. replace (depth + (length cp + length r + length q - length cp)) with (depth + length r + length q) by lia.
      destruct (match max with None => true | Some m => _ end); cbn; rewrite IH; auto. f_equal. unfold pre. cbn. now rewrite <- !app_assoc. }
    rewrite KC. clear KC.
    assert (KF : flat_map (dfs max (pr ++ cp ++ r) [] (match max with None => 0 | Some _ => depth + length r end)) ch =
      flat_map (fun x => map (pre (pr ++ cp ++ r)) (filter (fun e : path * nat => match max with None => true | Some m => depth + length r + length (fst e) <=? m end) (ents x))) ch).
    { apply flat_map_ext_in. intros x I. pose proof W as WB. apply wf_branch in WB as (CN & DN & S & F). rewrite Forall_forall in IH, F.
      pose proof (IH x I (pr ++ cp ++ r) (match max with None => 0 | Some _ => depth + length r end) (F x I) (clean_child pr _ _ _ _ _ W I C) [] (component x) eq_refl (or_introl eq_refl)) as H.
      rewrite app_nil_r in H. rewrite H. f_equal. apply filter_ext. intros e. destruct max as [m|]; auto. cbn. now rewrite Nat.sub_0_r. }
    rewrite KF. destruct max as [m|]; [|reflexivity]. destruct (m <? depth + length r) eqn:EM; [|reflexivity].
    symmetry. apply Nat.ltb_lt in EM. cbn [app]. clear - EM. induction ch as [|x l IH]; auto. cbn [flat_map]. rewrite IH, app_nil_r. clear - EM.
    induction (ents x) as [|e es IH]; auto. cbn. replace (depth + length r + length (fst e) <=? m) with false; auto. symmetry. apply Nat.leb_gt. lia.
Qed.

(** what is listed: everything but directories with nothing below *)
Definition listed (f : path -> option nat * option ptype) (q : path) (k : nat) : Prop :=
  fst (f q) = Some k /\ (snd (f q) <> None \/ exists r, r <> [] /\ fst (f (q ++ r)) <> None).
Lemma infol_nil q : infol [] q = (None, None).
Proof. reflexivity. Qed.
Lemma infol_some ch q : Forall wf ch -> StronglySorted hlt ch -> q <> [] -> fst (infol ch q) <> None -> exists x, In x ch /\ hd Root q = head x /\ infol ch q = info x q.
Proof.
  intros F S Q H. destruct (in_dec comp_dec (hd Root q) (map head ch)) as [D|D].
  - apply in_map_iff in D as (x & E & I). exists x. repeat split; auto. apply infol_in; auto using sorted_heads.
  - now rewrite infol_notin in H by auto.
Qed.
Lemma listed_list ch q k : wfl ch -> q <> [] ->
  (forall x, In x ch -> forall q k, In (q, k) (ents x) <-> listed (info x) q k) ->
  (In (q, k) (flat_map ents ch) <-> listed (infol ch) q k).
Proof.
  intros [S F] Q H. rewrite in_flat_map. split.
  - intros (x & I & E). apply H in E; auto. destruct E as [E1 E2].
    assert (HX : hd Root q = head x).
    { destruct q as [|y q]; [easy|]. cbn. destruct (comp_dec y (head x)); auto. rewrite info_head in E1; [discriminate| |congruence]. rewrite Forall_forall in F. now apply wf_component, F. }
    assert (K : forall r, infol ch (q ++ r) = info x (q ++ r)) by (intros r; apply infol_in; auto using sorted_heads; now destruct q).
    pose proof (K []) as K0. rewrite app_nil_r in K0. unfold listed. rewrite K0. split; auto. destruct E2 as [E2|(r & R & E2)]; auto. right. exists r. now rewrite K.
  - intros [E1 E2]. destruct (infol_some ch q F S Q) as (x & I & HX & E); [congruence|]. exists x. split; auto. apply H; auto.
    assert (K : forall r, infol ch (q ++ r) = info x (q ++ r)) by (intros r; apply infol_in; auto using sorted_heads; now destruct q).
    unfold listed. rewrite <- E. split; auto. destruct E2 as [E2|(r & R & E2)]; auto. right. exists r. now rewrite <- K.
Qed.
Lemma ents_nonempty n q k : wf n -> In (q, k) (ents n) -> exists s, q = component n ++ s.
Proof.
  intros W. destruct n as [c ty d|c ch d]; cbn [ents component].
  - destruct d; cbn; [|easy]. intros [[= <- <-]|[]]. exists []. now rewrite app_nil_r.
  - destruct ch as [|x l]; [easy|]. intros I. apply in_app_or in I as [I|I].
    + destruct d; cbn in I; [|easy]. destruct I as [[= <- <-]|[]]. exists []. now rewrite app_nil_r.
    + apply in_map_iff in I as ([q' k'] & [= <- <-] & _). eauto.
Qed.
Lemma ents_in n : wf n -> forall q k, In (q, k) (ents n) <-> listed (info n) q k.
Proof.
  induction n as [c ty d|c ch d IH] using node_ind'; intros W q k.
  - unfold listed. rewrite info_leaf. cbn [ents]. cbn in W. destruct (path_eqb q c) eqn:E.
    + apply path_eqb_eq in E. subst q. destruct d as [kd|]; [|tauto]. cbn. split; [intros [[= ->]|[]]; split; auto; left; easy|intros [[= ->] _]; auto].
    + apply path_eqb_neq in E. cbn. split; [|easy]. destruct d as [kd|]; cbn; [intros [[= <- <-]|[]]; easy|easy].
  - pose proof W as WB. apply wf_branch in WB as (CN & DN & S & F). destruct (split_prefix c q) as [(s & ->)|O].
    2:{ split.
        - intros I. apply ents_nonempty in I as (s & ->); auto. now destruct (O s).
        - intros [H _]. now rewrite info_other in H by auto. }
    destruct ch as [|x0 l0].
    { cbn [ents]. split; [easy|]. intros [H1 H2]. destruct (nil_or s) as [->|SN]; [|rewrite info_down in H1 by auto; easy].
      rewrite app_nil_r, info_self in H2. destruct H2 as [H2|(r & R & H2)]; [easy|]. rewrite info_down in H2 by auto. easy. }
    set (ch := x0 :: l0) in *. change (ents (Branch c ch d)) with (own c d ++ map (pre c) (flat_map ents ch)). rewrite in_app_iff.
    assert (H : forall x, In x ch -> forall q k, In (q, k) (ents x) <-> listed (info x) q k) by (intros x I; rewrite Forall_forall in IH, F; auto).
    assert (M : In (c ++ s, k) (map (pre c) (flat_map ents ch)) <-> In (s, k) (flat_map ents ch)).
    { rewrite in_map_iff. split; [intros ([q' k'] & [= E1 <-] & I); apply app_inv_head in E1; now subst|intros I; exists (s, k); auto]. }
    rewrite M. destruct (nil_or s) as [->|SN].
    + rewrite app_nil_r. unfold listed. rewrite info_self. cbn [fst snd].
      assert (NI : ~ In ([], k) (flat_map ents ch)).
      { rewrite in_flat_map. intros (x & I & E). rewrite Forall_forall in F. apply ents_nonempty in E as (z & E); auto. pose proof (wf_component x (F x I)). now destruct (component x). }
      split.
      * intros [I|I]; [|easy]. destruct d as [kd|]; [|easy]. destruct I as [[= ->]|[]]. split; auto. right.
        assert (W0 : wf x0) by (rewrite Forall_forall in F; apply F; now left). destruct (has_entry x0 W0) as (r & R). destruct (child_info c ch _ x0 _ W (or_introl eq_refl) R) as (E & Q & _).
        exists (component x0 ++ r). now rewrite E.
      * intros [-> _]. left. now left.
    + rewrite (listed_list ch s k (conj S F) SN H). unfold listed. setoid_rewrite <- app_assoc. rewrite info_down by auto.
      assert (NO : ~ In (c ++ s, k) (own c d)). { destruct d; cbn; [|easy]. intros [[= E _]|[]]. rewrite <- (app_nil_r c) in E at 1. apply app_inv_head in E. congruence. }
      assert (X : (exists r, r <> [] /\ fst (infol ch (s ++ r)) <> None) <-> (exists r, r <> [] /\ fst (info (Branch c ch d) (c ++ s ++ r)) <> None)).
      { split; intros (r & R & E); exists r; split; auto; rewrite info_down in *; auto; now destruct s. }
      rewrite X. tauto.
Qed.

(** the order *)
Definition plt (a b : path * nat) : Prop := path_cmp (fst a) (fst b) = Lt.
Lemma path_cmp_app c a b : path_cmp (c ++ a) (c ++ b) = path_cmp a b.
Proof. induction c; cbn; auto. now rewrite comp_cmp_refl. Qed.
Lemma ss_app {A} (R : A -> A -> Prop) l m : StronglySorted R l -> StronglySorted R m -> (forall a b, In a l -> In b m -> R a b) -> StronglySorted R (l ++ m).
Proof.
  induction 1 as [|x l S IH F]; intros S2 H; cbn; auto. constructor.
  - apply IH; auto. intros a b I J. apply H; auto. now right.
  - apply Forall_app. split; auto. apply Forall_forall. intros b J. apply H; auto. now left.
Qed.
Lemma ss_map {A} (R : A -> A -> Prop) (f : A -> A) l : (forall a b, R a b -> R (f a) (f b)) -> StronglySorted R l -> StronglySorted R (map f l).
Proof. intros H. induction 1 as [|x l S IH F]; cbn; constructor; auto. apply Forall_map. eapply Forall_impl; [|exact F]. auto. Qed.
Lemma ents_list_sorted ch : wfl ch -> (forall x, In x ch -> StronglySorted plt (ents x)) -> StronglySorted plt (flat_map ents ch).
Proof.
  intros [S F]. induction S as [|x l S IH SF]; intros H; cbn; [constructor|]. inversion_clear F as [|? ? F1 F2]. apply ss_app.
  - apply H. now left.
  - apply IH; auto. intros y I. apply H. now right.
  - intros [q k] [q' k'] I J. apply in_flat_map in J as (y & Y & J). rewrite Forall_forall in F2, SF. pose proof (SF y Y) as L.
    apply ents_nonempty in I as (s & ->); auto. apply ents_nonempty in J as (s' & ->); auto.
    pose proof (wf_component x F1). pose proof (wf_component y (F2 y Y)). unfold plt, hlt, head in *. cbn. destruct (component x), (component y); try easy. cbn in *. now rewrite L.
Qed.
Lemma ents_sorted n : wf n -> StronglySorted plt (ents n).
Proof.
  induction n as [c ty d|c ch d IH] using node_ind'; intros W.
  - cbn. destruct d; cbn; repeat constructor.
  - pose proof W as WB. apply wf_branch in WB as (CN & DN & S & F). destruct ch as [|x0 l0]; [constructor|]. set (ch := x0 :: l0) in *.
    change (ents (Branch c ch d)) with (own c d ++ map (pre c) (flat_map ents ch)). apply ss_app.
    + destruct d; cbn; repeat constructor.
    + apply ss_map; [intros a b; unfold plt, pre; cbn; now rewrite path_cmp_app|]. apply ents_list_sorted; [now split|]. intros x I. rewrite Forall_forall in IH, F. auto.
    + intros a b I J. destruct d; [|easy]. destruct I as [<-|[]]. apply in_map_iff in J as ([q k] & <- & J). unfold plt, pre. cbn [fst].
      rewrite <- (app_nil_r c) at 1. rewrite path_cmp_app. apply in_flat_map in J as (x & X & J). rewrite Forall_forall in F. apply ents_nonempty in J as (s & ->); auto.
      pose proof (wf_component x (F x X)). now destruct (component x).
Qed.
Lemma tree_iter_ents rs : Forall wf rs -> (forall x, In x rs -> clean [] x) -> tree_iter rs = flat_map ents rs.
Proof.
  intros F C. unfold tree_iter. apply flat_map_ext_in. intros x I. rewrite Forall_forall in F.
  pose proof (dfs_below None [] 0 x (F x I) (C x I) [] (component x) eq_refl (or_introl eq_refl)) as H. cbn [app] in H. rewrite H.
  replace (filter _ (ents x)) with (ents x).
  - clear. induction (ents x) as [|[q k] l IH]; cbn; auto. now rewrite IH.
  - clear. induction (ents x) as [|e l IH]; cbn; auto. now rewrite <- IH.
Qed.

(** entries at or below a path *)
Definition at_or_below (p q : path) : bool := match strip p q with Some _ => true | None => false end.
Lemma at_or_below_iff p q : at_or_below p q = true <-> exists r, q = p ++ r.
Proof. unfold at_or_below. destruct (strip p q) as [r|] eqn:E; split; try easy; [apply strip_some in E; eauto|]. intros (r & H). apply strip_some in H. congruence. Qed.
Lemma dfs_at_branch max pr c ch d p rest : p = c ++ rest -> rest <> [] ->
  dfs_at max pr (Branch c ch d) p = match pick ch rest with Some x => dfs_at max (pjoin pr c) x rest | None => [] end.
Proof.
  intros -> R. pose proof (common_prefix_spec (Branch c ch d) (c ++ rest)) as H. cbn [component] in H.
  assert (E : common_prefix (Branch c ch d) (c ++ rest) = Some Child).
  { destruct common_prefix as [[| | |c1]|]; auto.
    - rewrite <- (app_nil_r c) in H at 1. apply app_inv_head in H. congruence.
    - destruct H as (r & R' & H). rewrite <- app_assoc in H. rewrite <- (app_nil_r c) in H at 1. apply app_inv_head in H. symmetry in H. apply app_eq_nil in H. tauto.
    - destruct H as (N & x & a & y & b & H1 & H2 & D). rewrite H1, <- app_assoc in H2. apply app_inv_head in H2. cbn in H2. congruence.
    - destruct H as (x & a & y & b & H1 & H2 & D). rewrite H1 in H2. cbn in H2. congruence. }
  cbn [dfs_at]. rewrite E, stripped_app. unfold pick. clear. induction ch as [|x l IH]; cbn [find]; auto. destruct has_common_prefix; auto.
Qed.
Lemma filter_none {A} (f : A -> bool) l : (forall x, In x l -> f x = false) -> filter f l = [].
Proof. induction l as [|x l IH]; cbn; auto. intros H. rewrite H by auto. auto. Qed.
Lemma filter_all {A} (f : A -> bool) l : (forall x, In x l -> f x = true) -> filter f l = l.
Proof. induction l as [|x l IH]; cbn; auto. intros H. rewrite H by auto. f_equal; auto. Qed.
Lemma filter_pick ch p : wfl ch -> p <> [] -> filter (fun e => at_or_below p (fst e)) (flat_map ents ch) =
  match pick ch p with Some x => filter (fun e => at_or_below p (fst e)) (ents x) | None => [] end.
Proof.
  intros W P. induction ch as [|x l IH]; cbn [flat_map]; auto. pose proof (wfl_tail _ _ W) as [W1 W2]. rewrite filter_app, IH by auto. unfold pick at 2. cbn [find].
  assert (NX : has_common_prefix x p = false -> filter (fun e => at_or_below p (fst e)) (ents x) = []).
  { intros H. apply filter_none. intros [q k] I. apply ents_nonempty in I as (s & ->); auto. cbn. destruct (at_or_below p (component x ++ s)) eqn:E; auto. apply at_or_below_iff in E as (r & E).
    destruct p as [|y p]; [easy|]. rewrite hcp_eq in H by now apply wf_component. pose proof (wf_component x W1). unfold head in H. destruct (component x); [easy|]. cbn in *. injection E as -> _. now rewrite comp_eqb_refl in H. }
  destruct (has_common_prefix x p) eqn:E; [|now rewrite NX].
  rewrite pick_none by (eapply pick_unique; eauto). apply app_nil_r.
Qed.
Definition at_spec (max : option nat) (n : node) (p : path) (f : path * nat -> bool) : Prop :=
  (forall e, In e (ents n) -> f e = true -> at_or_below p (fst e) = true /\ match max with None => True | Some m => length (fst e) <= length p + m end) /\
  (max = None -> forall e, In e (ents n) -> at_or_below p (fst e) = true -> f e = true).
Lemma filter_flat ch x (g f : path * nat -> bool) : wfl ch -> In x ch ->
  (forall e, In e (ents x) -> g e = f e) -> (forall y e, In y ch -> y <> x -> In e (ents y) -> g e = false) ->
  filter g (flat_map ents ch) = filter f (ents x).
Proof.
  intros W I H1 H2. induction ch as [|z l IH]; [easy|]. pose proof (wfl_tail _ _ W) as [W1 W2]. cbn [flat_map]. rewrite filter_app.
  assert (NX : forall y, In y l -> y <> z).
  { intros y Y ->. destruct W as [S _]. inversion_clear S as [|? ? _ F]. rewrite Forall_forall in F. apply F in Y. unfold hlt in Y. now rewrite comp_cmp_refl in Y. }
  destruct I as [->|I].
  - rewrite (filter_none g (flat_map ents l)), app_nil_r; [now apply filter_ext_in|]. intros e E. apply in_flat_map in E as (y & Y & E). eapply H2; eauto. now right.
  - rewrite (filter_none g (ents z)); [cbn; apply IH; auto; intros y e Y; apply H2; now right|]. intros e E. eapply H2; eauto; [now left|]. intros ->. now apply (NX x).
Qed.
Lemma dfs_exact max pr nd p : wf nd -> clean pr nd -> component nd = p -> exists f, at_spec max nd p f /\ dfs max pr [] 0 nd = map (pre pr) (filter f (ents nd)).
Proof.
  intros W C E. pose proof (dfs_below max pr 0 nd W C [] (component nd) eq_refl (or_introl eq_refl)) as D. rewrite app_nil_r in D. eexists. split; [|exact D]. split.
  - intros [q k] I F. apply ents_nonempty in I as (s & ->); auto. cbn [fst] in *. split; [apply at_or_below_iff; exists s; congruence|]. destruct max as [m|]; auto. apply Nat.leb_le in F. cbn in F. lia.
  - intros -> e I A. reflexivity.
Qed.
Lemma dfs_ancestor max pr nd p r : wf nd -> clean pr nd -> pr = [] \/ ~ In Root p -> r <> [] -> component nd = p ++ r ->
  exists f, at_spec max nd p f /\ dfs max (pjoin pr p) p 0 nd = map (pre pr) (filter f (ents nd)).
Proof.
  intros W C NP R E. pose proof (dfs_below max pr 0 nd W C p r E (or_intror R)) as D. rewrite (pjoin_app pr p NP). eexists. split; [|exact D]. split.
  - intros [q k] I F. apply ents_nonempty in I as (s & ->); auto. cbn [fst] in *. split; [apply at_or_below_iff; rewrite E, <- app_assoc; eauto|]. destruct max as [m|]; auto. apply Nat.leb_le in F. lia.
  - intros -> e I A. reflexivity.
Qed.
Lemma dfs_nothing max pr nd p : wf nd -> (forall s, at_or_below p (component nd ++ s) = false) -> exists f, at_spec max nd p f /\ @nil (path * nat) = map (pre pr) (filter f (ents nd)).
Proof.
  intros W N. exists (fun _ => false). split; [split; [easy|]|now rewrite filter_none].
  intros _ [q k] I A. apply ents_nonempty in I as (s & ->); auto. cbn [fst] in A. rewrite N in A. discriminate.
Qed.
Lemma dfs_at_ok max n : wf n -> forall pr p, p <> [] -> clean pr n -> head n = hd Root p -> ~ In Root (tl p) -> pr = [] \/ ~ In Root p ->
  exists f, at_spec max n p f /\ dfs_at max pr n p = map (pre pr) (filter f (ents n)).
Proof.
  induction n as [c ty d|c ch d IH] using node_ind'; intros W pr p P C HP NR NP.
  1: set (nd := Leaf c ty d) in *. 2: set (nd := Branch c ch d) in *.
  1,2: pose proof (clean_component _ _ W C) as [CC1 CC2]; pose proof (common_prefix_spec nd p) as H; pose proof (dfs_exact max pr nd p W C) as EX;
       pose proof (fun r => dfs_ancestor max pr nd p r W C NP) as AN; pose proof (dfs_nothing max pr nd p W) as NO.
  - (* leaf *)
    subst nd. cbn [dfs_at]. destruct common_prefix as [[| | |cm]|]; auto.
    + destruct H as (r & R & H). eauto.
    + destruct H as (r & R & H). cbn [component] in H. exists (fun _ => false). split; [split; [easy|]|now rewrite filter_none]. intros _ [q k] I A. cbn in I. destruct d; [|easy]. destruct I as [[= <- <-]|[]].
      apply at_or_below_iff in A as (s & A). cbn in A. subst p. rewrite <- app_assoc in A. rewrite <- (app_nil_r c) in A at 1. apply app_inv_head in A. symmetry in A. apply app_eq_nil in A. tauto.
    + destruct H as (N & x & a & y & b & H1 & H2 & D). apply NO. intros s. destruct at_or_below eqn:A; auto. apply at_or_below_iff in A as (r & A). rewrite H1, H2, <- !app_assoc in A. apply app_inv_head in A. cbn in A. congruence.
    + destruct H as (x & a & y & b & H1 & H2 & D). apply NO. intros s. destruct at_or_below eqn:A; auto. apply at_or_below_iff in A as (r & A). rewrite H1, H2 in A. cbn in A. congruence.
  - (* branch *)
    destruct (common_prefix nd p) as [[| | |cm]|] eqn:EC.
    + replace (dfs_at max pr nd p) with (dfs max pr [] 0 nd); auto. subst nd. cbn [dfs_at]. now rewrite EC.
    + destruct H as (r & R & H). replace (dfs_at max pr nd p) with (dfs max (pjoin pr p) p 0 nd); [eauto|]. subst nd. cbn [dfs_at]. now rewrite EC.
    + destruct H as (r & R & H). cbn [component nd] in H. subst nd. rewrite (dfs_at_branch max pr c ch d p r H R).
      pose proof W as WB. apply wf_branch in WB as (CN & DN & S & F).
      destruct (pick ch r) as [x|] eqn:EP.
      * apply pick_in in EP as [IX HX]. rewrite Forall_forall in IH, F.
        assert (HH : head x = hd Root r) by (destruct r; [easy|]; rewrite hcp_eq in HX by (now apply wf_component, F); now apply comp_eqb_eq in HX).
        assert (RN : ~ In Root r) by (intros J; apply NR; subst p; destruct c; [easy|]; cbn; apply in_or_app; auto).
        assert (J : pjoin pr c = pr ++ c) by (apply pjoin_app; exact CC2).
        destruct (IH x IX (F x IX) (pr ++ c) r R (clean_child pr _ _ _ _ _ W IX C) HH) as (f & (A1 & A2) & D); auto.
        { intros J2. apply RN. destruct r; [easy|]. now right. }
        pose (g := fun e : path * nat => match strip c (fst e) with Some (y :: s) => comp_eqb y (head x) && f (y :: s, snd e) | _ => false end).
        assert (GX : forall e, In e (ents x) -> g (pre c e) = f e).
        { intros [q k] I. unfold g, pre. cbn [fst snd]. rewrite strip_app. apply ents_nonempty in I as (s & ->); [|now apply F].
          pose proof (wf_component x (F x IX)). unfold head. destruct (component x) as [|y cx]; [easy|]. cbn. now rewrite comp_eqb_refl. }
        assert (GY : forall y e, In y ch -> y <> x -> In e (ents y) -> g (pre c e) = false).
        { intros y [q k] Y YX I. unfold g, pre. cbn [fst snd]. rewrite strip_app. apply ents_nonempty in I as (s & ->); [|now apply F].
          pose proof (wf_component y (F y Y)). assert (HN : head y <> head x).
          { intros E. apply YX. clear - S Y IX E. apply sorted_heads in S. induction ch as [|z l IH]; [easy|]. cbn in S. inversion_clear S as [|? ? S1 S2].
            destruct Y as [->|Y], IX as [->|IX]; auto; [destruct S1; rewrite E; now apply in_map|destruct S1; rewrite <- E; now apply in_map]. }
          unfold head in HN at 1. destruct (component y) as [|z cy]; [easy|]. cbn in *. apply comp_eqb_neq in HN. now rewrite HN. }
        assert (GO : forall e, In e (own c d) -> g e = false).
        { intros e I. destruct d; [|easy]. destruct I as [<-|[]]. unfold g. cbn [fst]. replace (strip c c) with (@Some path []); auto. symmetry. apply strip_some. now rewrite app_nil_r. }
        assert (EN : ents (Branch c ch d) = own c d ++ map (pre c) (flat_map ents ch)) by (destruct ch; [easy|reflexivity]).
        exists g. split.
        -- split.
           ++ intros e I G. rewrite EN in I. apply in_app_or in I as [I|I]; [now rewrite GO in G|]. apply in_map_iff in I as (e' & <- & I). apply in_flat_map in I as (y & Y & I).
              assert (YX : y = x). { destruct (comp_dec (head y) (head x)) as [E|E]; [|rewrite GY with (y := y) in G; auto; [easy|congruence]].
                clear - S Y IX E. apply sorted_heads in S. induction ch as [|z l IH]; [easy|]. cbn in S. inversion_clear S as [|? ? S1 S2].
                destruct Y as [->|Y], IX as [->|IX]; auto; [destruct S1; rewrite E; now apply in_map|destruct S1; rewrite <- E; now apply in_map]. }
              subst y. rewrite GX in G by auto. destruct (A1 e' I G) as [B1 B2]. subst p. unfold pre. cbn [fst]. rewrite !app_length. split.
              ** apply at_or_below_iff in B1 as (s & B1). apply at_or_below_iff. exists s. rewrite B1. now rewrite app_assoc.
              ** destruct max; auto. lia.
           ++ intros M e I B. rewrite EN in I. apply at_or_below_iff in B as (s & B). subst p. rewrite <- app_assoc in B. apply in_app_or in I as [I|I].
              ** exfalso. destruct d; [|easy]. destruct I as [<-|[]]. cbn [fst] in B. rewrite <- (app_nil_r c) in B at 1. apply app_inv_head in B. symmetry in B. apply app_eq_nil in B. tauto.
              ** apply in_map_iff in I as (e' & <- & I). apply in_flat_map in I as (y & Y & I). unfold pre in B. cbn [fst] in B. apply app_inv_head in B.
                 assert (YX : y = x).
                 { assert (E : head y = head x). { destruct e' as [q k]. cbn in B. subst q. apply ents_nonempty in I as (z & I); [|now apply F]. pose proof (wf_component y (F y Y)). unfold head at 1. destruct (component y); [easy|]. cbn. rewrite HH. destruct r; [easy|]. cbn in I. cbn. congruence. }
                   clear - S Y IX E. apply sorted_heads in S. induction ch as [|z l IH]; [easy|]. cbn in S. inversion_clear S as [|? ? S1 S2].
                   destruct Y as [->|Y], IX as [->|IX]; auto; [destruct S1; rewrite E; now apply in_map|destruct S1; rewrite <- E; now apply in_map]. }
                 subst y. rewrite GX by auto. apply A2; auto. apply at_or_below_iff. eauto.
        -- rewrite J, D, EN, filter_app, (filter_none g (own c d)) by auto. cbn [app]. rewrite <- pre_pre. f_equal.
           transitivity (map (pre c) (filter (fun e => g (pre c e)) (flat_map ents ch))).
           ++ f_equal. symmetry. apply filter_flat; auto. split; auto. now apply Forall_forall.
           ++ clear. induction (flat_map ents ch) as [|e l IH]; cbn; auto. destruct (g (pre c e)); cbn; now rewrite IH.
      * exists (fun _ => false). split; [split; [easy|]|now rewrite filter_none]. intros _ [q k] I A. exfalso. assert (EN : ents (Branch c ch d) = own c d ++ map (pre c) (flat_map ents ch) \/ ch = []) by (destruct ch; auto).
        destruct EN as [EN| ->]; [|easy]. rewrite EN in I. apply at_or_below_iff in A as (s & A). cbn [fst] in A. subst p. rewrite <- app_assoc in A. subst q. apply in_app_or in I as [I|I].
        -- destruct d; [|easy]. destruct I as [[= B _]|[]]. rewrite <- (app_nil_r c) in B at 1. apply app_inv_head in B. symmetry in B. apply app_eq_nil in B. tauto.
        -- apply in_map_iff in I as ([q k'] & [= B <-] & I). apply app_inv_head in B. subst q. apply in_flat_map in I as (y & Y & I). rewrite Forall_forall in F. apply ents_nonempty in I as (z & I); [|now apply F].
           unfold pick in EP. apply find_none with (x := y) in EP; auto. destruct r as [|u r]; [easy|]. rewrite hcp_eq in EP by now apply wf_component, F. pose proof (wf_component y (F y Y)). unfold head in EP. destruct (component y); [easy|]. cbn in *. injection I as <- _. now rewrite comp_eqb_refl in EP.
    + destruct H as (N & x & a & y & b & H1 & H2 & D). replace (dfs_at max pr nd p) with (@nil (path * nat)) by (subst nd; cbn [dfs_at]; now rewrite EC). apply NO. intros s. destruct at_or_below eqn:A; auto. apply at_or_below_iff in A as (r & A). rewrite H1, H2, <- !app_assoc in A. apply app_inv_head in A. cbn in A. congruence.
    + destruct H as (x & a & y & b & H1 & H2 & D). replace (dfs_at max pr nd p) with (@nil (path * nat)) by (subst nd; cbn [dfs_at]; now rewrite EC). apply NO. intros s. destruct at_or_below eqn:A; auto. apply at_or_below_iff in A as (r & A). rewrite H1, H2 in A. cbn in A. congruence.
Qed.

Section Final.
Context {V : Type}.
Implicit Types (h : list (ins V)) (t : ptree V).
Lemma inv_clean h t : Inv h t -> (forall q, inserted h q -> ~ In Root (tl q)) -> forall x, In x (roots t) -> clean [] x.
Proof.
  intros I N x X q H. split; [|now left]. destruct (i_wf _ _ I) as [S F]. pose proof (proj1 (Forall_forall _ _) F x X) as WX.
  assert (Q : q <> []) by (intros ->; rewrite info_nil in H; [easy|now apply wf_component]).
  apply N, (i_some h t q I Q). rewrite (infol_in (roots t) x); auto using sorted_heads.
  destruct q as [|y q]; [easy|]. cbn. destruct (comp_dec y (head x)) as [|D]; auto. rewrite info_head in H; [easy|now apply wf_component|congruence].
Qed.
Lemma listed_iff h t q k : Inv h t -> q <> [] -> listed (infol (roots t)) q k <->
  fst (infol (roots t) q) = Some k /\ (~ inserted_as h q Dir \/ exists p, inserted h p /\ below q p).
Proof.
  intros I Q. unfold listed. split; intros [H1 H2]; (split; [auto|]).
  - destruct H2 as [H2|(r & R & H2)].
    + left. destruct (snd (infol (roots t) q)) as [ty|] eqn:E; [|easy]. apply (i_leaf _ _ I q ty Q) in E. tauto.
    + right. exists (q ++ r). split; [|exists r; auto]. apply (i_some h t (q ++ r) I); auto. now destruct q.
  - assert (B : (exists p, inserted h p /\ below q p) -> exists r, r <> [] /\ fst (infol (roots t) (q ++ r)) <> None).
    { intros (p & X & r & R & ->). exists r. split; auto. apply (i_some h t (q ++ r) I); auto. now destruct q. }
    destruct H2 as [H2|H2]; auto. destruct (snd (infol (roots t) q)) as [ty|] eqn:E; [left; easy|]. right. apply B.
    destruct (i_branch _ _ I q Q) as [K|K]; auto; [congruence|easy].
Qed.
Lemma tree_children_ok max h t p : Inv h t -> (forall q, inserted h q -> ~ In Root (tl q)) -> p <> [] -> ~ In Root (tl p) ->
  exists f : path * nat -> bool, tree_children (roots t) p max = filter f (tree_iter (roots t)) /\
   (forall e, In e (tree_iter (roots t)) -> f e = true -> at_or_below p (fst e) = true /\ match max with None => True | Some m => length (fst e) <= length p + m end) /\
   (max = None -> forall e, In e (tree_iter (roots t)) -> at_or_below p (fst e) = true -> f e = true).
Proof.
  intros I N P NR. pose proof (inv_clean h t I N) as C. pose proof (i_wf _ _ I) as W. rewrite tree_iter_ents by (auto; apply W). clear I.
  assert (K : forall l, tree_children l p max = match pick l p with Some x => dfs_at max [] x p | None => [] end).
  { unfold pick. induction l as [|x l IH]; cbn; auto. destruct has_common_prefix; auto. }
  rewrite K. clear K. destruct (pick (roots t) p) as [x|] eqn:E.
  - apply pick_in in E as [IX HX]. destruct W as [S F]. pose proof (proj1 (Forall_forall _ _) F x IX) as WX.
    assert (HH : head x = hd Root p) by (destruct p; [easy|]; rewrite hcp_eq in HX by (now apply wf_component); now apply comp_eqb_eq in HX).
    destruct (dfs_at_ok max x WX [] p P (C x IX) HH NR (or_introl eq_refl)) as (f & (A1 & A2) & D).
    assert (U : forall y, In y (roots t) -> head y = head x -> y = x).
    { clear - S IX. intros y Y E. apply sorted_heads in S. induction (roots t) as [|z l IH]; [easy|]. cbn in S. inversion_clear S as [|? ? S1 S2].
      destruct Y as [->|Y], IX as [->|IX]; auto; [destruct S1; rewrite E; now apply in_map|destruct S1; rewrite <- E; now apply in_map]. }
    assert (HE : forall y e, In y (roots t) -> In e (ents y) -> hd Root (fst e) = head y).
    { intros y [q k] Y J. pose proof (proj1 (Forall_forall _ _) F y Y) as WY. apply ents_nonempty in J as (s & ->); auto. pose proof (wf_component y WY). unfold head. cbn. now destruct (component y). }
    exists (fun e => comp_eqb (hd Root (fst e)) (head x) && f e). split; [|split].
    + rewrite D. replace (map (pre []) (filter f (ents x))) with (filter f (ents x)).
      2:{ clear. induction (filter f (ents x)) as [|[q k] l IH]; cbn; auto. now rewrite <- IH. }
      symmetry. apply filter_flat; auto; [now split| |].
      * intros e J. rewrite (HE x) by auto. now rewrite comp_eqb_refl.
      * intros y e Y YX J. rewrite (HE y) by auto. replace (comp_eqb (head y) (head x)) with false; auto. symmetry. apply comp_eqb_neq. intros E. now apply YX, U.
    + intros e J G. apply andb_true_iff in G as [G1 G2]. apply comp_eqb_eq in G1. apply in_flat_map in J as (y & Y & J). assert (y = x) by (apply U; auto; now rewrite <- (HE y e)). subst y. now apply A1.
    + intros M e J G. apply in_flat_map in J as (y & Y & J). assert (HY : head y = head x).
      { rewrite <- (HE y e) by auto. apply at_or_below_iff in G as (s & G). rewrite G, HH. now destruct p. }
      assert (y = x) by (apply U; auto). subst y. rewrite (HE x) by auto. rewrite comp_eqb_refl. cbn. now apply A2.
  - exists (fun _ => false). split; [now rewrite filter_none|]. split; [easy|]. intros _ e J A. apply in_flat_map in J as (y & Y & J). destruct W as [S F]. pose proof (proj1 (Forall_forall _ _) F y Y) as WY.
    unfold pick in E. apply find_none with (x := y) in E; auto. destruct e as [q k]. apply ents_nonempty in J as (s & ->); auto. apply at_or_below_iff in A as (r & A). cbn in A. destruct p as [|z p]; [easy|].
    rewrite hcp_eq in E by now apply wf_component. pose proof (wf_component y WY). unfold head in E. destruct (component y); [easy|]. cbn in *. injection A as -> _. now rewrite comp_eqb_refl in E.
Qed.
End Final.
