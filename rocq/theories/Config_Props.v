(** C35: inheriting configurations. *)
From Verif Require Import Base Map_Model Config_Model.
From Coq Require Import String.
Ltac splits := repeat match goal with |- _ /\ _ => split end.

(** Maps as the containers keep them: every key once, and the sorted ones in order. *)
Definition proper (c : config) : Prop := sorted (cf_env c) /\ NoDup (keys (cf_subst c)) /\ sorted (cf_features c).

Lemma env_inherit c p k : proper c -> proper p ->
  lookup k (cf_env (inherit c p)) = match lookup k (cf_env c) with Some v => Some v | None => lookup k (cf_env p) end.
Proof.
  intros (S & _) (S' & _). cbn. destruct (cf_env p) as [|kv r] eqn:E; cbn [empty negb].
  - cbn. now destruct lookup.
  - rewrite lookup_bt_extend; auto using sorted_nodup.
Qed.
Lemma features_inherit c p k : proper c -> proper p ->
  lookup k (cf_features (inherit c p)) = match lookup k (cf_features c) with Some v => Some v | None => lookup k (cf_features p) end.
Proof.
  intros (_ & _ & S) (_ & _ & S'). cbn. destruct (cf_features p) as [|kv r] eqn:E; cbn [empty negb].
  - cbn. now destruct lookup.
  - rewrite lookup_bt_extend; auto using sorted_nodup.
Qed.
Lemma subst_inherit c p k : proper c -> proper p ->
  lookup k (cf_subst (inherit c p)) = match lookup k (cf_subst c) with Some v => Some v | None => lookup k (cf_subst p) end.
Proof.
  intros (_ & S & _) (_ & S' & _). cbn. destruct (cf_subst p) as [|kv r] eqn:E; cbn [empty negb].
  - cbn. now destruct lookup.
  - rewrite lookup_im_extend; auto.
Qed.
Lemma filter_true {A} (l : list A) : filter (fun _ => true) l = l.
Proof. induction l; cbn; congruence. Qed.
Lemma filter_filter {A} (f g : A -> bool) l : filter f (filter g l) = filter (fun x => g x && f x) l.
Proof. induction l as [|a l IH]; cbn; auto. destruct (g a); cbn; [|auto]. destruct (f a); congruence. Qed.
Lemma subst_order c p : proper c -> proper p ->
  keys (cf_subst (inherit c p)) = keys (cf_subst p) ++ filter (fun k => negb (existsb (fun a => str_eqb a k) (keys (cf_subst p)))) (keys (cf_subst c)).
Proof.
  intros (_ & S & _) (_ & S' & _). cbn. destruct (cf_subst p) as [|kv r] eqn:E; cbn [empty negb].
  - cbn. now rewrite filter_true.
  - rewrite keys_im_extend; auto.
Qed.

(** C35: each environment variable, substitution and feature is the child's if it has it and the
    parent's otherwise; format and pattern lists are the child's unless unset.  Substitutions are tried
    in the parent's order first, then the child's own in its order. *)
Theorem C35_inherit child parent : proper child -> proper parent -> let r := inherit child parent in
  (forall x v, lookup x (cf_env r) = Some v <-> lookup x (cf_env child) = Some v \/ (~ In x (keys (cf_env child)) /\ lookup x (cf_env parent) = Some v)) /\
  (forall x v, lookup x (cf_subst r) = Some v <-> lookup x (cf_subst child) = Some v \/ (~ In x (keys (cf_subst child)) /\ lookup x (cf_subst parent) = Some v)) /\
  (forall f, In f (keys (cf_features r)) <-> In f (keys (cf_features child)) \/ In f (keys (cf_features parent))) /\
  (exists own, keys (cf_subst r) = keys (cf_subst parent) ++ own /\ own = filter (fun k => if in_dec (list_eq_dec N.eq_dec) k (keys (cf_subst parent)) then false else true) (keys (cf_subst child))) /\
  cf_format r = match cf_format child with FDefault => cf_format parent | f => f end /\
  cf_patterns r = match cf_patterns child with [] => cf_patterns parent | l => l end /\
  cf_exclude r = match cf_exclude child with [] => cf_exclude parent | l => l end /\
  proper r.
Proof.
  intros C P r. splits.
  - intros x v. subst r. rewrite env_inherit by auto. rewrite lookup_none. destruct (lookup x (cf_env child)); intuition congruence.
  - intros x v. subst r. rewrite subst_inherit by auto. rewrite lookup_none. destruct (lookup x (cf_subst child)); intuition congruence.
  - intros f. rewrite !lookup_in. subst r. rewrite features_inherit by auto. destruct (lookup f (cf_features child)) as [u|]; [split; eauto|]. split; [auto|intros [(v & [=])|]; auto].
  - eexists. split; [|reflexivity]. subst r. rewrite subst_order by auto. f_equal. apply filter_ext. intros k.
    destruct in_dec as [I|I]; [apply existsb_in in I|apply existsb_nin in I]; now rewrite I.
  - reflexivity.
  - cbn. now destruct (cf_patterns child).
  - cbn. now destruct (cf_exclude child).
  - destruct C as (C1 & C2 & C3), P as (P1 & P2 & P3). subst r. unfold proper. splits; cbn.
    + destruct negb; auto using bt_extend_sorted.
    + destruct negb; auto using nodup_im_extend.
    + destruct negb; auto using bt_extend_sorted.
Qed.
Lemma proper_inherit c p : proper c -> proper p -> proper (inherit c p).
Proof. intros C P. apply (C35_inherit c p C P). Qed.
(** C35: along a chain of directories it does not matter in which order the levels are combined. *)
Theorem C35_associative child parent grand : proper child -> proper parent -> proper grand ->
  inherit (inherit child parent) grand = inherit child (inherit parent grand).
Proof.
  intros C P G. pose proof (proper_inherit _ _ C P) as CP. pose proof (proper_inherit _ _ P G) as PG.
  pose proof (proper_inherit _ _ CP G) as (L1 & L2 & L3). pose proof (proper_inherit _ _ C PG) as (R1 & R2 & R3).
  assert (E : cf_env (inherit (inherit child parent) grand) = cf_env (inherit child (inherit parent grand))).
  { apply sorted_ext; auto. intros k. rewrite !env_inherit by auto. now destruct (lookup k (cf_env child)). }
  assert (F : cf_features (inherit (inherit child parent) grand) = cf_features (inherit child (inherit parent grand))).
  { apply sorted_ext; auto. intros k. rewrite !features_inherit by auto. now destruct (lookup k (cf_features child)). }
  assert (S : cf_subst (inherit (inherit child parent) grand) = cf_subst (inherit child (inherit parent grand))).
  { apply map_ext; auto.
    - rewrite !subst_order by auto. rewrite filter_app, <- app_assoc. do 2 f_equal. rewrite filter_filter. apply filter_ext. intros k.
      rewrite existsb_app. destruct (existsb (fun a => str_eqb a k) (keys (cf_subst grand))) eqn:X; cbn; [now rewrite andb_false_r|].
      rewrite andb_true_r. f_equal. symmetry.
      destruct (existsb (fun a => str_eqb a k) (keys (cf_subst parent))) eqn:Y; [apply existsb_in in Y|apply existsb_nin in Y].
      + apply existsb_in, filter_In. now rewrite X.
      + apply existsb_nin. rewrite filter_In. tauto.
    - intros k. rewrite !subst_inherit by auto. now destruct (lookup k (cf_subst child)). }
  destruct (inherit (inherit child parent) grand) as [a1 a2 a3 a4 a5 a6] eqn:EL, (inherit child (inherit parent grand)) as [b1 b2 b3 b4 b5 b6] eqn:ER. cbn in E, F, S. subst.
  injection EL as <- <- <- _ _ _. injection ER as <- <- <- _ _ _. f_equal.
  - now destruct (cf_format child).
  - now destruct (cf_patterns child).
  - now destruct (cf_exclude child).
Qed.

Open Scope string_scope.
Example C35_ex : let child := mkConfig FDefault [] ["*.x"%string : str] [("A" : str, "2" : str)] [("%b" : str, "y" : str); ("%a" : str, "z" : str)] [("f" : str, tt)] in
  let parent := mkConfig (FShTest []) ["*.t" : str] [] [("A" : str, "1" : str); ("B" : str, "3" : str)] [("%c" : str, "w" : str); ("%a" : str, "v" : str)] [("e" : str, tt)] in
  proper child /\ proper parent /\
  inherit child parent = mkConfig (FShTest []) ["*.t" : str] ["*.x" : str] [("A" : str, "2" : str); ("B" : str, "3" : str)]
    [("%c" : str, "w" : str); ("%a" : str, "z" : str); ("%b" : str, "y" : str)] [("e" : str, tt); ("f" : str, tt)].
Proof.
  unfold proper. cbn. splits; auto; try (repeat constructor; fail); repeat constructor; cbn; intuition discriminate.
Qed.
Print Assumptions C35_inherit.
Print Assumptions C35_associative.
