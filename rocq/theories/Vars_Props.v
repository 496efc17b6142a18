(** C99: what a refused CHECK-LABEL points at. *)
From Coq Require Import String Permutation.
From Verif Require Import Base Cursor_Model Env_Model Num_Model Gram_Model Parse_Model Regex_Model Smart_Model Vars_Model Vars_Spec Vars_Proofs.
From Verif Require Parse_Props.
Open Scope list_scope.
Open Scope nat_scope.

(** A CHECK-LABEL that mentions a variable is refused, and one that was accepted mentions none. *)
Theorem C99_refused E ci strict l : flat_map mentions l <> [] -> compile_static E ci strict (PParts l) = Err.
Proof.
  intros M. unfold compile_static. destruct l as [|q l]; [now destruct M|]. cbn [compact]. destruct (fold_left compact_one (q :: l) ([], nothing_pending)) as [out p] eqn:F.
  destruct out as [|o out]; [|reflexivity]. destruct (fold_out (q :: l) [] nothing_pending) as [_ FX]; [now rewrite F|].
  destruct (crun_fixed _ nothing_pending [] FX) as (p' & F' & _ & S). rewrite F in F'. injection F' as ->. specialize (S [] stands_nothing). cbn [app] in S.
  destruct S as (C & L & _). destruct (p_lit p') eqn:PL.
  - exfalso. apply M. rewrite <- C, L; reflexivity.
  - destruct (p_caps p'); [|reflexivity]. exfalso. now apply M.
Qed.
Theorem C99_accepted E ci strict l m : compile_static E ci strict (PParts l) = Val m -> flat_map mentions l = [].
Proof. intros C. destruct (flat_map mentions l) as [|v r] eqn:M; auto. rewrite C99_refused in C by (now rewrite M). discriminate. Qed.

(** The report points at the variables mentioned before the first run of parts that mentions none, and
    at nothing else; when there is no such run, at all of them. *)
Theorem C99_labels_partial l : exists vs, (forall ws, labels (PParts l) ws <-> ws = vs) /\
  exists pre post, l = pre ++ post /\ Permutation vs (flat_map mentions pre) /\ (post = [] \/ gap pre post).
Proof.
  exists (pointed (compact (PParts l))). split.
  { intros ws. unfold labels. split; [intros Y; eapply yields_det; eauto using yields_pointed|intros ->; apply yields_pointed]. }
  destruct l as [|q l0] eqn:QL; [exists [], []; cbn; auto using perm_nil|]. rewrite <- QL in *. assert (C : compact (PParts l) =
    match fold_left compact_one l ([], nothing_pending) with
      | ([], p) => if p_lit p then KpLit (p_text p) else KpRegex (p_text p) (p_caps p)
      | (out, p) => KpParts (out ++ pending_part p)
      end) by (rewrite QL; reflexivity).
  rewrite C. clear C QL q l0. pose proof (fold_crun l [] nothing_pending) as FC.
  destruct (fold_left compact_one l ([], nothing_pending)) as [out p] eqn:F. destruct out as [|o out].
  - destruct (fold_out l [] nothing_pending) as [_ FX]; [now rewrite F|]. destruct (crun_fixed _ nothing_pending [] FX) as (p' & F' & _ & S).
    rewrite F in F'. injection F' as ->. specialize (S [] stands_nothing). cbn [app] in S. destruct S as (S & L & _).
    exists l, []. rewrite app_nil_r. split; [reflexivity|split; [|now left]]. rewrite <- S. destruct (p_lit p'); cbn [pointed]; [|reflexivity]. rewrite L by reflexivity. reflexivity.
  - cbn [app] in FC. cbn [pointed app]. rewrite FC. apply (collect_crun l nothing_pending [] stands_nothing).
Qed.
(** In particular, all the variables are pointed at when every run of parts without a variable touches a
    part that captures one; no place is ever pointed at that is not a variable of the pattern. *)
Theorem C99_all l vs : labels (PParts l) vs -> (forall pre post, l = pre ++ post -> ~ gap pre post) -> Permutation vs (flat_map mentions l).
Proof.
  intros Y N. destruct (C99_labels_partial l) as (vs' & U & pre & post & E & P & G). apply U in Y as ->.
  destruct G as [->|G]; [rewrite app_nil_r in E; now subst|exfalso; now apply (N pre post)].
Qed.
Theorem C99_sound l vs v : labels (PParts l) vs -> In v vs -> exists q, In q l /\ In v (mentions q).
Proof.
  intros Y I. destruct (C99_labels_partial l) as (vs' & U & pre & post & -> & P & _). apply U in Y as ->.
  apply (Permutation_in _ P) in I. apply in_flat_map in I as (q & Q & M). exists q. split; auto. apply in_or_app. now left.
Qed.
(** C99 is refuted in full: the variable of the label [f[[X]]] is not pointed at, the label begins with
    text. *)
Theorem C99_refuted :
  exists l, parse_file Parse_Props.check_cfg (of_string "CHECK-LABEL: f[[X]]"%string) = Some [mkCLine CLabel false (PParts l)] /\
    flat_map mentions l = [User (of_string "X"%string)] /\ labels (PParts l) [].
Proof.
  eexists. split; [vm_compute; reflexivity|]. split; [reflexivity|]. unfold labels. eapply Y_again; [reflexivity|]. apply Y_stop. reflexivity.
Qed.
Example C99_ex : exists l, parse_file Parse_Props.check_cfg (of_string "CHECK-LABEL: [[X]][[#Y+Z]]"%string) = Some [mkCLine CLabel false (PParts l)] /\
  labels (PParts l) (map (fun x => User (of_string x)) ["X"; "Y"; "Z"]%string).
Proof.
  eexists. split; [vm_compute; reflexivity|]. unfold labels. eapply Y_again; [reflexivity|]. eapply Y_yield; [reflexivity|].
  eapply Y_again; [reflexivity|]. eapply Y_yield; [reflexivity|]. eapply Y_yield; [reflexivity|]. eapply Y_again; [reflexivity|]. now apply Y_stop.
Qed.
Print Assumptions C99_refused.
Print Assumptions C99_accepted.
Print Assumptions C99_labels_partial.
Print Assumptions C99_all.
Print Assumptions C99_sound.
Print Assumptions C99_refuted.
