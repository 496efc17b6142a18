(** Model of the ordered containers lit's configuration uses: [indexmap::IndexMap] (entries in order of
    first insertion), [std::collections::BTreeMap] and [BTreeSet] (entries in order of their keys).
    These are libraries: modelled from their documentation.  Keys are texts, compared byte by byte,
    which for UTF-8 is the order of code points. *)
From Verif Require Import Base.

Section Maps.
Context {V : Type}.
(** The value stored under a key. *)
Fixpoint lookup (k : str) (m : list (str * V)) : option V :=
  match m with
  | [] => None
  | (k', v) :: r => if str_eqb k' k then Some v else lookup k r
  end.
(** [IndexMap::insert]: replace in place, or append *)
Fixpoint im_insert (k : str) (v : V) (m : list (str * V)) : list (str * V) :=
  match m with
  | [] => [(k, v)]
  | (k', v') :: r => if str_eqb k' k then (k', v) :: r else (k', v') :: im_insert k v r
  end.
(** [Extend for IndexMap] *)
Definition im_extend (m new : list (str * V)) : list (str * V) :=
  fold_left (fun m kv => im_insert (fst kv) (snd kv) m) new m.
End Maps.

(** [Ord for str] *)
Fixpoint str_cmp (a b : str) : comparison :=
  match a, b with
  | [], [] => Eq
  | [], _ :: _ => Lt
  | _ :: _, [] => Gt
  | x :: a', y :: b' => match N.compare x y with Eq => str_cmp a' b' | c => c end
  end.
Section Sorted.
Context {V : Type}.
(** [BTreeMap::insert] *)
Fixpoint bt_insert (k : str) (v : V) (m : list (str * V)) : list (str * V) :=
  match m with
  | [] => [(k, v)]
  | (k', v') :: r =>
      match str_cmp k k' with
      | Lt => (k, v) :: m
      | Eq => (k', v) :: r
      | Gt => (k', v') :: bt_insert k v r
      end
  end.
Definition bt_extend (m new : list (str * V)) : list (str * V) :=
  fold_left (fun m kv => bt_insert (fst kv) (snd kv) m) new m.
End Sorted.
(** [BTreeSet::insert]: a set is a map to nothing *)
Definition bs_insert (k : str) (m : list (str * unit)) := bt_insert k tt m.

(** ** Facts about them *)
Notation keys := (map fst).

Lemma str_cmp_eq a : forall b, str_cmp a b = Eq <-> a = b.
Proof.
  induction a as [|x a IH]; intros [|y b]; cbn; split; try easy.
  - destruct (N.compare x y) eqn:E; try easy. apply N.compare_eq in E. subst. intros H. apply IH in H. congruence.
  - intros [= -> ->]. rewrite N.compare_refl. now apply IH.
Qed.
Lemma str_cmp_refl a : str_cmp a a = Eq.
Proof. now apply str_cmp_eq. Qed.
Lemma str_cmp_anti a : forall b, str_cmp b a = CompOpp (str_cmp a b).
Proof.
  induction a as [|x a IH]; intros [|y b]; cbn; try easy. rewrite (N.compare_antisym x y). destruct (N.compare x y); cbn; auto.
Qed.
Lemma str_cmp_trans a : forall b c, str_cmp a b = Lt -> str_cmp b c = Lt -> str_cmp a c = Lt.
Proof.
  induction a as [|x a IH]; intros [|y b] [|z c]; cbn; try easy.
  destruct (N.compare x y) eqn:E1, (N.compare y z) eqn:E2; try easy.
  - apply N.compare_eq in E1, E2. subst. rewrite N.compare_refl. apply IH.
  - apply N.compare_eq in E1. subst. now rewrite E2.
  - apply N.compare_eq in E2. subst. now rewrite E1.
  - rewrite N.compare_lt_iff in *. assert (H : (x < z)%N) by lia. apply N.compare_lt_iff in H. now rewrite H.
Qed.

Section Facts.
Context {V : Type}.
Implicit Types m : list (str * V).
Lemma lookup_im_insert k v m k' : lookup k' (im_insert k v m) = if str_eqb k k' then Some v else lookup k' m.
Proof.
  induction m as [|(a, w) r IH]; cbn; auto. destruct (str_eqb a k) eqn:E; cbn.
  - apply str_eqb_eq in E. subst. now destruct (str_eqb k k').
  - rewrite IH. destruct (str_eqb a k') eqn:A, (str_eqb k k') eqn:B; auto. apply str_eqb_eq in A, B. subst. now rewrite str_eqb_refl in E.
Qed.
Lemma lookup_in k m : In k (keys m) <-> exists v, lookup k m = Some v.
Proof.
  induction m as [|(a, w) r IH]; cbn; [split; [easy|intros (v & [=])]|]. destruct (str_eqb a k) eqn:E.
  - apply str_eqb_eq in E. split; eauto.
  - apply str_eqb_neq in E. rewrite IH. intuition congruence.
Qed.
Lemma lookup_none k m : ~ In k (keys m) <-> lookup k m = None.
Proof. rewrite lookup_in. destruct (lookup k m) as [v|]; split; try easy; [intros H; exfalso; eauto|intros _ (v & [=])]. Qed.
Lemma keys_im_insert k v m : keys (im_insert k v m) = if existsb (fun a => str_eqb a k) (keys m) then keys m else keys m ++ [k].
Proof.
  induction m as [|(a, w) r IH]; cbn; auto. destruct (str_eqb a k) eqn:E; cbn; auto. rewrite IH. now destruct existsb.
Qed.
Lemma existsb_in k (l : list str) : existsb (fun a => str_eqb a k) l = true <-> In k l.
Proof. rewrite existsb_exists. split; [intros (x & X & E); apply str_eqb_eq in E; now subst|intros I; exists k; split; auto; apply str_eqb_refl]. Qed.
Lemma existsb_nin k (l : list str) : existsb (fun a => str_eqb a k) l = false <-> ~ In k l.
Proof. rewrite <- existsb_in. destruct existsb; split; congruence. Qed.
Lemma nodup_im_insert k v m : NoDup (keys m) -> NoDup (keys (im_insert k v m)).
Proof.
  intros N. rewrite keys_im_insert. destruct existsb eqn:E; auto. apply existsb_nin in E.
  apply NoDup_rev in N. rewrite <- (rev_involutive (keys m ++ [k])), rev_app_distr. apply NoDup_rev. cbn. constructor; auto. now rewrite <- in_rev.
Qed.
Lemma lookup_im_extend new : forall m k, NoDup (keys new) -> lookup k (im_extend m new) = match lookup k new with Some v => Some v | None => lookup k m end.
Proof.
  unfold im_extend. induction new as [|(a, w) r IH]; intros m k N; cbn; auto. inversion_clear N as [|? ? N1 N2]. rewrite IH, lookup_im_insert; auto.
  destruct (str_eqb a k) eqn:E; auto. apply str_eqb_eq in E. subst. apply lookup_none in N1. now rewrite N1.
Qed.
Lemma nodup_im_extend new : forall m, NoDup (keys m) -> NoDup (keys (im_extend m new)).
Proof. unfold im_extend. induction new as [|(a, w) r IH]; intros m N; cbn; auto. apply IH. now apply nodup_im_insert. Qed.
Lemma keys_im_extend new : forall m, NoDup (keys new) -> keys (im_extend m new) = keys m ++ filter (fun k => negb (existsb (fun a => str_eqb a k) (keys m))) (keys new).
Proof.
  unfold im_extend. induction new as [|(a, w) r IH]; intros m N; cbn; [now rewrite app_nil_r|]. inversion_clear N as [|? ? N1 N2]. rewrite IH; auto.
  rewrite keys_im_insert. destruct existsb eqn:E; cbn; auto. rewrite <- app_assoc. cbn. do 2 f_equal. apply filter_ext_in. intros k K.
  rewrite existsb_app. cbn. rewrite orb_false_r. destruct (str_eqb a k) eqn:A; [|now rewrite orb_false_r]. apply str_eqb_eq in A. subst. contradiction.
Qed.
(** Maps in insertion order are the same when they have the same keys in the same order and the same values. *)
Lemma map_ext m : forall m', keys m = keys m' -> NoDup (keys m) -> (forall k, lookup k m = lookup k m') -> m = m'.
Proof.
  induction m as [|(a, w) r IH]; intros [|(b, x) s] K N L; try easy. cbn in K. injection K as -> K. inversion_clear N as [|? ? N1 N2].
  assert (w = x) by (specialize (L b); cbn in L; rewrite str_eqb_refl in L; congruence). subst. f_equal. apply IH; auto. intros k. specialize (L k). cbn in L.
  destruct (str_eqb b k) eqn:E; auto. apply str_eqb_eq in E. subst.
  transitivity (@None V); [|symmetry]; apply lookup_none; [auto|now rewrite <- K].
Qed.

(** sorted by key, without repetition *)
Fixpoint sorted m : Prop :=
  match m with
  | [] => True
  | (k, _) :: r => Forall (fun kv => str_cmp k (fst kv) = Lt) r /\ sorted r
  end.
Lemma lookup_below k m : Forall (fun kv => str_cmp k (fst kv) = Lt) m -> lookup k m = None.
Proof.
  induction 1 as [|(a, w) r H _ IH]; cbn; auto. destruct (str_eqb a k) eqn:E; auto. apply str_eqb_eq in E. subst. cbn in H. now rewrite str_cmp_refl in H.
Qed.
Lemma bt_insert_forall k v m (P : str * V -> Prop) : P (k, v) -> (forall w, P (k, w) -> P (k, v)) -> Forall P m -> Forall P (bt_insert k v m).
Proof.
  intros PK PE. induction 1 as [|(a, w) r H F IH]; cbn; auto. destruct (str_cmp k a) eqn:E; auto. apply str_cmp_eq in E. subst. auto.
Qed.
Lemma bt_insert_sorted k v m : sorted m -> sorted (bt_insert k v m).
Proof.
  induction m as [|(a, w) r IH]; cbn; auto. intros [F S]. destruct (str_cmp k a) eqn:E; cbn.
  - auto.
  - repeat split; auto. constructor; auto. eapply Forall_impl; [|exact F]. cbn. intros (b, x) B. eapply str_cmp_trans; eauto.
  - split; auto. apply bt_insert_forall; auto. cbn. rewrite str_cmp_anti, E. reflexivity.
Qed.
Lemma lookup_bt_insert k v m k' : sorted m -> lookup k' (bt_insert k v m) = if str_eqb k k' then Some v else lookup k' m.
Proof.
  induction m as [|(a, w) r IH]; cbn; auto. intros [F S]. destruct (str_cmp k a) eqn:E; cbn.
  - apply str_cmp_eq in E. subst. now destruct (str_eqb a k').
  - reflexivity.
  - rewrite IH; auto. destruct (str_eqb a k') eqn:A, (str_eqb k k') eqn:B; auto. apply str_eqb_eq in A, B. subst. now rewrite str_cmp_refl in E.
Qed.
Lemma bt_extend_sorted new : forall m, sorted m -> sorted (bt_extend m new).
Proof. unfold bt_extend. induction new as [|(a, w) r IH]; intros m S; cbn; auto. apply IH. now apply bt_insert_sorted. Qed.
Lemma sorted_nodup m : sorted m -> NoDup (keys m).
Proof.
  induction m as [|(a, w) r IH]; cbn; [constructor|]. intros [F S]. constructor; auto. apply lookup_none. now apply lookup_below.
Qed.
Lemma lookup_bt_extend new : forall m k, sorted m -> NoDup (keys new) -> lookup k (bt_extend m new) = match lookup k new with Some v => Some v | None => lookup k m end.
Proof.
  unfold bt_extend. induction new as [|(a, w) r IH]; intros m k S N; cbn; auto. inversion_clear N as [|? ? N1 N2]. rewrite IH, lookup_bt_insert; auto using bt_insert_sorted.
  destruct (str_eqb a k) eqn:E; auto. apply str_eqb_eq in E. subst. apply lookup_none in N1. now rewrite N1.
Qed.
(** Sorted maps are the same when they have the same values. *)
Lemma sorted_ext m : forall m', sorted m -> sorted m' -> (forall k, lookup k m = lookup k m') -> m = m'.
Proof.
  induction m as [|(a, w) r IH]; intros [|(b, x) s] S S' L; auto.
  - specialize (L b). cbn in L. now rewrite str_eqb_refl in L.
  - specialize (L a). cbn in L. now rewrite str_eqb_refl in L.
  - cbn in S, S'. destruct S as [F S], S' as [F' S']. assert (a = b).
    { destruct (str_cmp a b) eqn:E; [now apply str_cmp_eq| |].
      - specialize (L a). cbn in L. rewrite str_eqb_refl in L. destruct (str_eqb b a) eqn:B; [now apply str_eqb_eq in B|].
        rewrite lookup_below in L; [easy|]. eapply Forall_impl; [|exact F']. cbn. intros (c, y) C. eapply str_cmp_trans; eauto.
      - assert (E' : str_cmp b a = Lt) by (rewrite str_cmp_anti, E; auto). specialize (L b). cbn in L. rewrite str_eqb_refl in L. destruct (str_eqb a b) eqn:B; [now apply str_eqb_eq in B|].
        rewrite lookup_below in L; [easy|]. eapply Forall_impl; [|exact F]. cbn. intros (c, y) C. eapply str_cmp_trans; eauto. }
    subst b. assert (w = x) by (specialize (L a); cbn in L; rewrite str_eqb_refl in L; congruence). subst x. f_equal. apply IH; auto. intros k. specialize (L k). cbn in L.
    destruct (str_eqb a k) eqn:E; auto. apply str_eqb_eq in E. subst. now rewrite !lookup_below.
Qed.
End Facts.
