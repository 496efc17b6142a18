(** C89: the features of a test. *)
From Coq Require Import String.
From Verif Require Import Base Cursor_Model Map_Model Config_Model Config_Props Tool_Model Feature_Spec.
Notation length := List.length.
Open Scope string_scope. Open Scope list_scope. Open Scope nat_scope.
Ltac splits := repeat match goal with |- _ /\ _ => split end.

Lemma in_insert (k f : str) (m : list (str * unit)) : sorted m -> In f (keys (bt_insert k tt m)) <-> f = k \/ In f (keys m).
Proof.
  intros H. rewrite !lookup_in, lookup_bt_insert by exact H. destruct (str_eqb k f) eqn:E.
  - apply str_eqb_eq in E as ->. split; eauto.
  - assert (k <> f) by (intros ->; rewrite (proj2 (str_eqb_eq f f) eq_refl) in E; discriminate). split; [intros (v & V); right; eauto|intros [->|]; [congruence|auto]].
Qed.
Lemma architecture_eq a b : architecture_beq a b = true <-> a = b.
Proof. destruct a, b; cbn; split; congruence. Qed.
Lemma system_eq a b : system_beq a b = true <-> a = b.
Proof. destruct a, b; cbn; split; congruence. Qed.
Lemma triple_eq a b : triple_eqb a b = true <-> a = b.
Proof.
  unfold triple_eqb. rewrite !Bool.andb_true_iff, !str_eqb_eq, architecture_eq, system_eq. destruct a, b; cbn. split; [intros ((((-> & ->) & ->) & ->) & ->); reflexivity|intros E; injection E; intros; subst; splits; reflexivity].
Qed.
Ltac inserted := repeat (rewrite in_insert by auto 12 using bt_insert_sorted).
Lemma features_set host target m f : sorted m -> In f (keys (set_default_features host target m)) <-> builtin host target f \/ In f (keys m).
Proof.
  intros Sm. unfold set_default_features. destruct (triple_eqb host target) eqn:E; [apply triple_eq in E|assert (D : host <> target) by (intros X; apply triple_eq in X; congruence)].
  all: destruct (t_arch target) eqn:Ea; destruct (t_os target) eqn:Eo; cbv zeta; inserted.
  all: split; [intros I; repeat match goal with H : _ \/ _ |- _ => destruct H end; try subst f; auto; left;
    first [apply f_system|apply f_host|apply f_target|now apply f_native|apply f_linux; unfold is_x86_64; auto; fail|apply f_darwin; unfold is_x86_64; auto; fail|apply f_linker; unfold is_apple; auto; fail|
      replace (of_string "target-x86_64") with (of_string "target-" ++ arch_name target) by (unfold arch_name; rewrite Ea; reflexivity); apply f_arch|
      replace (of_string "target-x86") with (of_string "target-" ++ arch_name target) by (unfold arch_name; rewrite Ea; reflexivity); apply f_arch|
      replace (of_string "target-aarch64") with (of_string "target-" ++ arch_name target) by (unfold arch_name; rewrite Ea; reflexivity); apply f_arch|
      replace (of_string "target-arm") with (of_string "target-" ++ arch_name target) by (unfold arch_name; rewrite Ea; reflexivity); apply f_arch|
      replace (t_arch_text target) with (arch_name target) by (unfold arch_name; rewrite Ea; reflexivity); apply f_arch]|].
  all: intros [B|I]; [|tauto]; destruct B as [| | |En| |[A|A] L|[A|A] L|[A|A]]; try tauto; try congruence; try (unfold arch_name; rewrite Ea; cbn [of_string]; tauto).
Qed.
Lemma sorted_features host target m : sorted m -> sorted (set_default_features host target m).
Proof.
  intros Sm. unfold set_default_features. destruct (triple_eqb host target), (t_arch target), (t_os target); cbv zeta; auto 12 using bt_insert_sorted.
Qed.
Lemma sorted_nil {V} : sorted (@nil (str * V)).
Proof. constructor. Qed.
Lemma nodup_defaults : NoDup [FILECHECK_KEY; NOT_KEY; of_string "%\{pathsep\}"; of_string "%\{fs-src-root\}"; of_string "%\{fs-tmp-root\}"; of_string "%\{fs-sep\}"].
Proof. repeat constructor; cbn; intuition discriminate. Qed.
Lemma proper_defaults dir file src tmp host target c : proper c -> proper (defaults dir file src tmp host target c).
Proof.
  intros (A & B & C). unfold proper, defaults. cbn [cf_env cf_subst cf_features]. splits; auto using sorted_features. unfold set_default_substitutions. destruct (tool_values dir file). now apply nodup_im_extend.
Qed.
Lemma proper_default : proper default_config.
Proof. unfold proper, default_config. cbn. splits; auto using sorted_nil. constructor. Qed.

Section Features.
Context (dir file src tmp : str) (host target : triple).
(** The features of a suite's tests are those of its configuration and the built-in ones, and no others. *)
Theorem suite_features cfg f : proper cfg ->
  In f (keys (cf_features (suite_config dir file src tmp host target cfg))) <-> builtin host target f \/ In f (keys (cf_features cfg)).
Proof using.
  intros Pc. pose proof (proper_defaults dir file src tmp host target _ proper_default) as Pd. unfold suite_config. destruct (C35_inherit _ _ Pc Pd) as (_ & _ & Hf & _). rewrite Hf. cbn [defaults cf_features]. rewrite features_set by apply sorted_nil. cbn. tauto.
Qed.
(** The configurations from a suite down to a directory, the suite's first *)
Fixpoint below (above : config) (l : list config) : config :=
  match l with [] => above | c :: r => below (local_config dir file src tmp host target above c) r end.
Lemma below_proper l : forall above, proper above -> Forall proper l -> proper (below above l).
Proof using. induction l as [|c l IH]; intros a Pa Pl; [exact Pa|]. inversion Pl; subst. cbn. apply IH; auto. unfold local_config. apply proper_defaults. now apply proper_inherit. Qed.
Lemma below_features l : forall above f, proper above -> Forall proper l -> (forall f, builtin host target f -> In f (keys (cf_features above))) ->
  In f (keys (cf_features (below above l))) <-> In f (keys (cf_features above)) \/ exists c, In c l /\ In f (keys (cf_features c)).
Proof using.
  induction l as [|c l IH]; intros a f Pa Pl B.
  - cbn. split; [auto|intros [|(? & [] & _)]; auto].
  - inversion Pl as [|? ? Pc Pr]; subst. cbn [below]. assert (Pn : proper (local_config dir file src tmp host target a c)) by (unfold local_config; apply proper_defaults; now apply proper_inherit).
    assert (E : forall g, In g (keys (cf_features (local_config dir file src tmp host target a c))) <-> In g (keys (cf_features a)) \/ In g (keys (cf_features c))).
    { intros g. unfold local_config. cbn [defaults cf_features]. destruct (C35_inherit c a Pc Pa) as (_ & _ & Hf & _ & _ & _ & _ & (_ & _ & Sf)). rewrite features_set by exact Sf. rewrite Hf. split; [intros [K|[K|K]]; auto|tauto]. }
    rewrite IH; [|exact Pn|exact Pr|]. 2: { intros g Bg. apply E. left. auto. }
    rewrite E. cbn [In]. split; [intros [[K|K]|(d & D & K)]; eauto|intros [K|(d & [<-|D] & K)]; eauto].
Qed.
(** The features of a test: the built-in ones, and those of the configurations of its suite and of the directories above it *)
Theorem test_features suite l f : proper suite -> Forall proper l ->
  In f (keys (cf_features (below (suite_config dir file src tmp host target suite) l)))
  <-> builtin host target f \/ exists c, In c (suite :: l) /\ In f (keys (cf_features c)).
Proof using.
  intros Ps Pl. rewrite below_features; [|apply proper_inherit; [exact Ps|apply proper_defaults, proper_default]|exact Pl|intros g; rewrite suite_features by exact Ps; auto].
  rewrite suite_features by exact Ps. cbn [In]. split; [intros [[K|K]|(d & D & K)]; eauto|intros [K|(d & [<-|D] & K)]; eauto].
Qed.
(** The substitutions of a suite: its own come first *)
Theorem suite_substitutions cfg k v : proper cfg ->
  lookup k (cf_subst (suite_config dir file src tmp host target cfg)) = Some v <->
  lookup k (cf_subst cfg) = Some v \/ (~ In k (keys (cf_subst cfg)) /\ lookup k (set_default_substitutions dir file src tmp []) = Some v).
Proof using.
  intros Pc. pose proof (proper_defaults dir file src tmp host target _ proper_default) as Pd. unfold suite_config. destruct (C35_inherit _ _ Pc Pd) as (_ & Hs & _). rewrite Hs. reflexivity.
Qed.
(** But not those of a directory, or of its suite *)
Theorem directory_substitutions above cfg k v : proper cfg -> proper above ->
  lookup k (cf_subst (local_config dir file src tmp host target above cfg)) = Some v <->
  lookup k (set_default_substitutions dir file src tmp []) = Some v \/
  (~ In k (keys (set_default_substitutions dir file src tmp [])) /\ (lookup k (cf_subst cfg) = Some v \/ (~ In k (keys (cf_subst cfg)) /\ lookup k (cf_subst above) = Some v))).
Proof using.
  intros Pc Pa. unfold local_config. cbn [defaults cf_subst]. destruct (C35_inherit cfg above Pc Pa) as (_ & Hs & _). rewrite <- Hs. rewrite lookup_none. clear Hs.
  set (m := cf_subst (inherit cfg above)). clearbody m.
  assert (E : lookup k (set_default_substitutions dir file src tmp m) = match lookup k (set_default_substitutions dir file src tmp []) with Some x => Some x | None => lookup k m end).
  { unfold set_default_substitutions. destruct (tool_values dir file) as [a b]. pose proof nodup_defaults as Nd. rewrite !lookup_im_extend by exact Nd. destruct (lookup k _); reflexivity. }
  rewrite E. destruct (lookup k (set_default_substitutions dir file src tmp [])); intuition congruence.
Qed.
End Features.
Print Assumptions test_features.
Print Assumptions directory_substitutions.
Definition linux_box : triple := mkTriple (of_string "x86_64-unknown-linux-gnu") X86_64 (of_string "x86_64") Linux (of_string "linux").
Definition mac_box : triple := mkTriple (of_string "x86_64-apple-macosx10.7.0") X86_64 (of_string "x86_64") MacOSX (of_string "macosx10.7.0").
Definition with_subst (l : list (str * str)) : config := mkConfig FDefault [] [] [] l [].
Definition with_features (l : list string) : config := mkConfig FDefault [] [] [] [] (bt_extend [] (map (fun x => (of_string x, tt)) l)).
(** A substitution that a suite defines for itself is lost in directories with a configuration of their own. *)
Theorem override_refuted : exists dir file src tmp host target suite k v,
  proper suite /\ lookup k (cf_subst (suite_config dir file src tmp host target suite)) = Some v /\
  lookup k (cf_subst (local_config dir file src tmp host target (suite_config dir file src tmp host target suite) default_config)) <> Some v.
Proof.
  exists (of_string "/bin"), (of_string "lit"), (of_string "/"), (of_string "/"), linux_box, linux_box, (with_subst [(of_string "%\{pathsep\}", of_string ";")]), (of_string "%\{pathsep\}"), (of_string ";").
  splits; [cbn; splits; auto using sorted_nil; repeat constructor; intros []|vm_compute; reflexivity|vm_compute; discriminate].
Qed.
(** A target that runs macOS may lack the feature of 64-bit Apple machines. *)
Theorem apple_refuted : exists host target, is_x86_64 target /\ is_apple target /\
  ~ In (of_string "x86_64-apple") (keys (cf_features (suite_config (of_string "/bin") (of_string "lit") (of_string "/") (of_string "/") host target default_config))).
Proof. exists linux_box, mac_box. splits; [now left|now right|]. vm_compute. intuition discriminate. Qed.
Example ex_features : let f := keys (cf_features (below (of_string "/bin") (of_string "lit") (of_string "/") (of_string "/") linux_box mac_box (suite_config (of_string "/bin") (of_string "lit") (of_string "/") (of_string "/") linux_box mac_box (with_features ["asserts"])) [with_features ["debug"]])) in
  f = map of_string ["asserts"; "debug"; "host=x86_64-unknown-linux-gnu"; "system-linker-mach-o"; "system-linux"; "target-x86_64"; "target=x86_64-apple-macosx10.7.0"].
Proof. vm_compute. reflexivity. Qed.
Example ex_features_hyps : proper (with_features ["asserts"]) /\ Forall proper [with_features ["debug"]].
Proof.
  assert (P : forall l, proper (with_features l)) by (intros l; unfold proper, with_features; cbn [cf_env cf_subst cf_features]; splits; [apply sorted_nil|constructor|apply bt_extend_sorted, sorted_nil]).
  split; [apply P|]. constructor; [apply P|constructor].
Qed.

(** * Commands, in directories with configurations of their own (C88) *)
From Verif Require Import Script_Model Sub_Model Tool_Spec Tool_Props.
Lemma set_again dir file src tmp : set_default_substitutions dir file src tmp (set_default_substitutions dir file src tmp []) = set_default_substitutions dir file src tmp [].
Proof. unfold set_default_substitutions. destruct (tool_values dir file) as [a b]. reflexivity. Qed.
Lemma below_same dir file src tmp host target l : forall above, cf_subst above = set_default_substitutions dir file src tmp [] -> Forall (fun c => cf_subst c = []) l ->
  cf_subst (below dir file src tmp host target above l) = set_default_substitutions dir file src tmp [].
Proof.
  induction l as [|c l IH]; intros above Ha Hl; [exact Ha|]. inversion Hl as [|? ? Hc Hr]; subst. cbn [below]. apply IH; [|exact Hr]. unfold local_config, defaults, inherit. cbn [cf_subst]. rewrite Hc, Ha. cbn [im_extend fold_left].
  destruct (negb _) eqn:E; [apply set_again|]. unfold set_default_substitutions in E. destruct (tool_values dir file). discriminate.
Qed.
Theorem command_expanded_below rx dir file src tmp host target suite l path sdir temp base c out :
  clean_dir dir -> file = of_string "litcheck" \/ file = of_string "lit" -> Forall inert [src; tmp; path; sdir; temp; base] ->
  Forall (fun c => cf_subst c = []) (suite :: l) -> proper_command c -> spread (words c) ->
  apply (rx_known rx) (test_substitutions (cf_subst (below dir file src tmp host target (suite_config dir file src tmp host target suite) l)) [] path sdir temp base) (command_text c) = inl out
  <-> run_command (tools_of dir file) (values src tmp path sdir temp base) c out.
Proof.
  intros Cd Hf Vi Sl P Sp. inversion Sl as [|? ? Hs Hl]; subst. assert (E : cf_subst (suite_config dir file src tmp host target suite) = set_default_substitutions dir file src tmp []).
  { unfold suite_config, inherit, defaults. cbn [cf_subst]. rewrite Hs. cbn [default_config cf_subst im_extend fold_left]. destruct (negb _) eqn:E; [reflexivity|]. unfold set_default_substitutions in E. destruct (tool_values dir file). discriminate. }
  rewrite below_same by assumption. rewrite <- E. now apply command_expanded.
Qed.
Print Assumptions command_expanded_below.
