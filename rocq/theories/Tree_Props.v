(** The path index against its specification (C40, C41, C42). *)
From Coq Require Import Sorted String.
From Verif Require Import Base Map_Model Tree_Model Tree_Spec Tree_Proofs.
Open Scope string_scope. Open Scope list_scope. Notation length := List.length.
Ltac splits := repeat match goal with |- _ /\ _ => split end.

Section T.
Context {V : Type}.
Implicit Types (h ok : list (ins V)) (t : ptree V).

(** C40, over any history: looking a path up gives the last value whose insertion was accepted, never an index panic *)
Theorem C40_lookup_partial h ok t : well_formed h -> run h = (ok, t) ->
  forall q, q <> [] -> get t q = Some (last_value ok q) /\ (contains t q = true <-> inserted ok q).
Proof.
  intros W R q Q. pose proof (run_inv h W) as I. rewrite R in I. cbn [fst snd] in I. pose proof (i_wf _ _ I) as WF. pose proof (i_data _ _ I q Q) as D. pose proof (i_some ok t q I Q) as S.
  unfold get, contains. rewrite tree_get_info, tree_contains_info by auto. destruct (fst (infol (roots t) q)) as [k|]; cbn.
  - destruct D as [D1 D2]. rewrite D1. split; [now destruct (last_value ok q)|]. split; auto. intros _. now apply S.
  - split; [congruence|]. split; [easy|]. intros X. apply S in X. easy.
Qed.
(** while the paths exist and the file system does not change, no insertion is refused: the index is a map *)
Theorem C40_settled_partial h ok t : well_formed h -> settled h -> run h = (ok, t) ->
  ok = h /\ forall q, q <> [] -> get t q = Some (last_value h q) /\ (contains t q = true <-> inserted h q).
Proof.
  intros W S R. pose proof (run_settled h W S) as E. rewrite R in E. cbn in E. subst ok. split; auto. eapply C40_lookup_partial; eauto.
Qed.

(** C41: the answer is the deepest strict ancestor that was inserted and is known to be a directory: inserted as one, or
    with something inserted below it *)
Definition directory ok (q : path) : Prop := inserted ok q /\ (inserted_as ok q Dir \/ exists p, inserted ok p /\ below q p).
Theorem C41_directories_partial h ok t p : well_formed h -> run h = (ok, t) -> valid p ->
  exists o, nearest_ancestor t p = Some o /\
  match o with
  | Some (q, v) => below q p /\ last_value ok q = Some v /\ directory ok q /\ forall q', q' <> [] -> below q' p -> directory ok q' -> q' = q \/ below q' q
  | None => forall q', q' <> [] -> below q' p -> ~ directory ok q'
  end.
Proof.
  intros W R [P NR]. pose proof (run_inv h W) as I. rewrite R in I. cbn [fst snd] in I.
  assert (DD : forall q, q <> [] -> is_dir (infol (roots t)) q <-> directory ok q).
  { intros q Q. unfold is_dir, directory. rewrite (i_some ok t q I Q). split; intros [A B]; split; auto.
    - apply (i_branch _ _ I q Q); auto. now apply (i_some ok t q I Q).
    - destruct (snd (infol (roots t) q)) as [ty|] eqn:E; auto. exfalso. apply (i_leaf _ _ I q ty Q) in E as (E1 & E2 & E3). destruct B as [B|(x & X1 & X2)]; auto. now apply (E3 x). }
  pose proof (tree_nearest_ok (roots t) p (i_wf _ _ I) P NR) as N. unfold nearest_ancestor. destruct (tree_nearest (roots t) p) as [[q k]|]; cbn in N.
  - destruct N as (Q & B & F & M). pose proof (i_data _ _ I q Q) as D. rewrite F in D. cbn [fst] in D. destruct D as [D1 D2]. destruct (last_value ok q) as [v|] eqn:EV; [|easy].
    exists (Some (q, v)). unfold entry. cbn [fst snd]. rewrite D1. splits; auto.
    + apply DD; auto. unfold is_dir. rewrite F. easy.
    + intros q' Q' B' D'. apply M; auto. now apply DD.
  - exists None. split; auto. intros q' Q' B' D'. apply (N q' Q' B'). now apply DD.
Qed.
(** so, if the inserted ancestors were directories when inserted, it is the deepest inserted strict ancestor *)
Theorem C41_nearest_partial h ok t p : well_formed h -> run h = (ok, t) -> valid p ->
  (forall q, inserted ok q -> below q p -> inserted_as ok q Dir) ->
  exists o, nearest_ancestor t p = Some o /\
  match o with
  | Some (q, v) => below q p /\ last_value ok q = Some v /\ forall q', inserted ok q' -> below q' p -> q' = q \/ below q' q
  | None => forall q', inserted ok q' -> ~ below q' p
  end.
Proof.
  intros W R VP AD. destruct (C41_directories_partial h ok t p W R VP) as (o & E & S). exists o. split; auto.
  assert (NE : forall q, inserted ok q -> q <> []).
  { intros q X. assert (IN : forall hh t0, fst (run_from t0 hh) = ok -> well_formed hh -> q <> []).
    { intros hh. revert X. clear. revert ok. induction hh as [|[[a b] v] hh IH]; intros ok X t0 E W; cbn in *; [subst; easy|].
      destruct (try_insert t0 a b v) as [t' e]. destruct (run_from t' hh) as [ok' t''] eqn:ER. cbn in E. destruct (W a b) as [[N _] _]; [now left|].
      assert (W' : well_formed hh) by (intros c d J; apply W; now right).
      destruct e; subst ok; [apply (IH ok' X t'); auto; now rewrite ER|]. destruct X as [<-|X]; auto. apply (IH ok' X t'); auto. now rewrite ER. }
    apply (IN h new_tree); auto. unfold run in R. now rewrite R. }
  destruct o as [[q v]|].
  - destruct S as (S1 & S2 & S3 & S4). splits; auto. intros q' X B. apply S4; auto. split; auto.
  - intros q' X B. apply (S q' (NE q' X) B). split; auto.
Qed.

(** C42: what an iteration yields: every entry once, in the order of paths, with its current value - except the
    directories inserted as such with nothing below them *)
Lemma accepted_in h t0 q : inserted (fst (run_from t0 h)) q -> inserted h q.
Proof.
  revert t0. induction h as [|[[a b] v] h IH]; intros t0; cbn; auto. destruct (try_insert t0 a b v) as [t' e]. specialize (IH t'). destruct (run_from t' h) as [ok' t'']. cbn in *.
  unfold inserted in *. destruct e; cbn; [auto|]. intros [X|X]; auto.
Qed.
Lemma accepted_valid h ok t : well_formed h -> run h = (ok, t) -> forall q, inserted ok q -> valid q.
Proof.
  intros W R q X. unfold run in R. pose proof (accepted_in h new_tree q) as A. rewrite R in A. apply A in X. unfold inserted in X. apply in_map_iff in X as ([[a b] v] & E & J). cbn in E. subst a.
  destruct (W q b) as [H _]; auto. apply in_map_iff. now exists (q, b, v).
Qed.
Definition iterated ok (q : path) (v : V) : Prop :=
  last_value ok q = Some v /\ (~ inserted_as ok q Dir \/ exists p, inserted ok p /\ below q p).
Theorem C42_iter_partial h ok t : well_formed h -> run h = (ok, t) ->
  exists l, iter t = map Some l /\ StronglySorted (fun a b => path_cmp (fst a) (fst b) = Lt) l /\
            forall q v, q <> [] -> In (q, v) l <-> iterated ok q v.
Proof.
  intros W R. pose proof (run_inv h W) as I. rewrite R in I. cbn [fst snd] in I. pose proof (accepted_valid h ok t W R) as VA.
  pose proof (i_wf _ _ I) as WF. assert (CL : forall x, In x (roots t) -> clean [] x) by (apply (inv_clean ok t I); intros q X; now apply VA).
  unfold iter. rewrite tree_iter_ents by (auto; apply WF).
  assert (SO : StronglySorted plt (flat_map ents (roots t))) by (apply ents_list_sorted; auto; intros x X; apply ents_sorted; destruct WF as [_ F]; rewrite Forall_forall in F; auto).
  assert (EI : forall q k, q <> [] -> In (q, k) (flat_map ents (roots t)) <-> listed (infol (roots t)) q k).
  { intros q k Q. apply listed_list; auto. intros x X. apply ents_in. destruct WF as [_ F]. rewrite Forall_forall in F. auto. }
  assert (NE : forall q k, In (q, k) (flat_map ents (roots t)) -> q <> []).
  { intros q k J. apply in_flat_map in J as (x & X & J). destruct WF as [_ F]. rewrite Forall_forall in F. apply ents_nonempty in J as (s & ->); auto. pose proof (wf_component x (F x X)). now destruct (component x). }
  assert (VAL : forall e, In e (flat_map ents (roots t)) -> exists v, last_value ok (fst e) = Some v /\ entry t e = Some (fst e, v)).
  { intros [q k] J. pose proof (NE q k J) as Q. apply EI in J as [J _]; auto. pose proof (i_data _ _ I q Q) as D. rewrite J in D. destruct D as [D1 D2].
    destruct (last_value ok q) as [v|] eqn:EV; [|easy]. exists v. cbn. unfold entry. cbn. rewrite D1. auto. }
  assert (L : exists l, map (entry t) (flat_map ents (roots t)) = map Some l /\ Forall2 (fun e x => fst x = fst e /\ last_value ok (fst e) = Some (snd x)) (flat_map ents (roots t)) l).
  { clear - VAL. induction (flat_map ents (roots t)) as [|e es IH]; [exists []; split; auto|]. destruct IH as (l & E & F); [intros x X; apply VAL; now right|].
    destruct (VAL e (or_introl eq_refl)) as (v & V1 & V2). exists ((fst e, v) :: l). cbn. rewrite V2, E. split; auto. }
  destruct L as (l & E & F2). exists l. splits; auto.
  - clear - SO F2. revert SO. induction F2 as [|e x es l [H1 _] F2 IH]; intros SO; [constructor|]. inversion_clear SO as [|? ? S1 S2]. constructor; auto.
    clear - H1 F2 S2. induction F2 as [|e' x' es l [H2 _] F2 IH]; constructor; inversion_clear S2; auto. unfold plt in *. now rewrite H1, H2.
  - intros q v Q. unfold iterated. split.
    + intros J. assert (X : exists k, In (q, k) (flat_map ents (roots t)) /\ last_value ok q = Some v).
      { clear - F2 J. induction F2 as [|e x es l [H1 H2] F2 IH]; [easy|]. destruct J as [->|J]; [|destruct (IH J) as (k & K); exists k; cbn; tauto]. destruct e as [a k]. cbn in *. subst a. exists k. auto. }
      destruct X as (k & X & LV). split; auto. apply EI in X; auto. apply (listed_iff ok t q k I Q) in X. tauto.
    + intros [LV C]. pose proof (i_data _ _ I q Q) as D. destruct (fst (infol (roots t) q)) as [k|] eqn:EK; [|congruence].
      assert (X : In (q, k) (flat_map ents (roots t))) by (apply EI; auto; apply (listed_iff ok t q k I Q); auto).
      clear - F2 X LV. induction F2 as [|e x es l [H1 H2] F2 IH]; [easy|]. destruct X as [->|X]; [left|right; auto]. cbn in *. destruct x as [a b]. cbn [fst snd] in *. subst a. f_equal. congruence.
Qed.
(** [children] without a limit yields exactly the iterated entries at or below the path: the path itself too, if it is an entry;
    with a limit [m] it yields some of these, in the same order, and none more than [m] components deeper *)
Theorem C42_children_partial h ok t p max : well_formed h -> run h = (ok, t) -> valid p ->
  exists l f, iter t = map Some l /\ children t p max = map Some (filter f l) /\
  (forall e, In e l -> f e = true -> (exists r, fst e = p ++ r) /\ match max with Some m => length (fst e) <= length p + m | None => True end) /\
  (max = None -> forall e, In e l -> (exists r, fst e = p ++ r) -> f e = true).
Proof.
  intros W R [P NR]. destruct (C42_iter_partial h ok t W R) as (l & E & SO & M). pose proof (run_inv h W) as I. rewrite R in I. cbn [fst snd] in I.
  pose proof (accepted_valid h ok t W R) as VA. destruct (tree_children_ok max ok t p I) as (f & C & A1 & A2); auto. { intros q X. now apply VA. }
  unfold children. rewrite C. clear C. pose proof E as E0. unfold iter in E. remember (tree_iter (roots t)) as es. clear Heqes.
  (* keys are determined by paths *)
  assert (SF : StronglySorted (fun a b : path * nat => path_cmp (fst a) (fst b) = Lt) es).
  { clear - E SO. revert l E SO. induction es as [|e es IH]; intros [|x l] E SO; try easy; [constructor|]. cbn in E. injection E as E1 E2. inversion_clear SO as [|? ? S1 S2].
    constructor; [eapply IH; eauto|]. unfold entry in E1. destruct (nth_error (values t) (snd e)); [|easy]. cbn in E1. injection E1 as <-. cbn in *. clear - E2 S2. revert l E2 S2. induction es as [|y es IH]; intros [|z l] E2 S2; try easy; constructor; cbn in E2; injection E2 as E1 E2; inversion_clear S2.
    - unfold entry in E1. destruct (nth_error (values t) (snd y)); [|easy]. cbn in E1. injection E1 as <-. auto.
    - eapply IH; eauto. }
  exists l, (fun x => existsb (fun e => path_eqb (fst e) (fst x) && f e) es). splits; auto.
  - assert (K : forall es' l', (exists a, es = a ++ es') -> map (entry t) es' = map Some l' -> map (entry t) (filter f es') = map Some (filter (fun x => existsb (fun e => path_eqb (fst e) (fst x) && f e) es) l')).
    { induction es' as [|e es' IH]; intros [|x l'] X E'; try easy. cbn in E'. injection E' as E1 E2. cbn [filter].
      assert (FX : fst e = fst x) by (unfold entry in E1; destruct (nth_error (values t) (snd e)); [|easy]; cbn in E1; now injection E1 as <-).
      assert (FE : existsb (fun e0 => path_eqb (fst e0) (fst x) && f e0) es = f e).
      { destruct X as (a & X). assert (IE : In e es) by (rewrite X; apply in_or_app; right; now left). destruct (f e) eqn:F.
        - apply existsb_exists. exists e. split; auto. now rewrite FX, path_eqb_refl, F.
        - destruct existsb eqn:EB; auto. apply existsb_exists in EB as (e0 & I0 & B). apply andb_true_iff in B as [B1 B2]. apply path_eqb_eq in B1. exfalso.
          assert (e0 = e); [|congruence]. rewrite <- FX in B1. clear - SF IE I0 B1. induction SF as [|z es S IH F]; [easy|]. rewrite Forall_forall in F.
          destruct IE as [->|IE], I0 as [->|I0]; auto; [apply F in I0|apply F in IE]; rewrite B1 in *; exfalso.
          + assert (R : forall q, path_cmp q q = Eq) by (induction q; cbn; auto; now rewrite comp_cmp_refl). now rewrite R in I0.
          + assert (R : forall q, path_cmp q q = Eq) by (induction q; cbn; auto; now rewrite comp_cmp_refl). now rewrite R in IE. }
      rewrite FE. specialize (IH l' ltac:(destruct X as (a & X); exists (a ++ [e]); now rewrite <- app_assoc) E2). destruct (f e); cbn; [rewrite E1; f_equal|]; auto. }
    apply K; auto. exists (@nil (path * nat)). reflexivity.
  - intros x X F. apply existsb_exists in F as (e & J & B). apply andb_true_iff in B as [B1 B2]. apply path_eqb_eq in B1. destruct (A1 e J B2) as [H1 H2]. apply at_or_below_iff in H1. rewrite B1 in *. auto.
  - intros MX x X H. apply existsb_exists. assert (JX : exists e, In e es /\ fst e = fst x).
    { clear - E X. revert l E X. induction es as [|e es IH]; intros [|y l] E X; try easy. cbn in E. injection E as E1 E2. destruct X as [->|X].
      - exists e. split; [now left|]. unfold entry in E1. destruct (nth_error (values t) (snd e)); [|easy]. cbn in E1. now injection E1 as <-.
      - destruct (IH l E2 X) as (e0 & I0 & F0). exists e0. split; auto. now right. }
    destruct JX as (e & J & FX). exists e. split; auto. rewrite FX, path_eqb_refl. cbn. apply A2; auto. apply at_or_below_iff. now rewrite FX.
Qed.
End T.

(** ** Concrete cases *)
Definition dir (l : list String.string) : path := Root :: map (fun s => Name (of_string s)) l.
Arguments dir l%list_scope.
(** a settled history with splits, a shared prefix and a replaced value *)
Definition h1 : list (ins nat) :=
  [(dir ["s"; "a"; "x"], File, 1); (dir ["s"; "b"], Dir, 2); (dir ["s"; "a"], Dir, 3); (dir ["s"; "a"; "y"], File, 4); (dir ["s"; "a"; "x"], File, 5); (dir ["s"; "c"], Dir, 6)].
Ltac in_cases := repeat match goal with H : _ \/ _ |- _ => destruct H as [H|H] | H : False |- _ => destruct H end.
Example h1_ok : well_formed h1 /\ settled h1.
Proof.
  split; [|unfold settled; splits].
  - intros p ty I. cbn in I. in_cases; injection I as <- <-; (split; [split; [easy|cbn; intros J; in_cases; easy]|easy]).
  - unfold inserted_as. intros p ty I. cbn in I. in_cases; injection I as <- <-; easy.
  - unfold inserted_as. intros p I J. cbn in I, J. in_cases; try discriminate I; try discriminate J; injection I as <-; discriminate J.
  - unfold inserted_as, inserted. intros p q I J (r & R & E). cbn in I, J, E. in_cases; try discriminate I; injection I as <-; rewrite E in J; cbn in J; try discriminate J;
      injection J as J; destruct R; congruence.
Qed.
Example h1_run : let t := snd (run h1) in
  get t (dir ["s"; "a"; "x"]) = Some (Some 5) /\ get t (dir ["s"]) = Some None /\ contains t (dir ["s"; "c"]) = true /\
  nearest_ancestor t (dir ["s"; "a"; "x"; "z"]) = Some (Some (dir ["s"; "a"], 3)) /\ nearest_ancestor t (dir ["s"; "a"]) = Some None /\
  iter t = [Some (dir ["s"; "a"], 3); Some (dir ["s"; "a"; "x"], 5); Some (dir ["s"; "a"; "y"], 4)] /\
  children t (dir ["s"; "a"; "y"]) None = [Some (dir ["s"; "a"; "y"], 4)].
Proof. vm_compute. repeat split. Qed.

(** C40 fails outside settled histories: a path that does not exist yet cannot be inserted again once another was inserted below or
    beside it, although both insertions came from the same caller; a directory cannot replace what was seen as a file above it *)
Theorem C40_reinsert_refuted : exists h : list (ins nat), well_formed h /\ (forall p ty, inserted_as h p ty -> ty = Unknown) /\
  last_value h (dir ["a"; "b"]) = Some 3 /\ get (snd (run h)) (dir ["a"; "b"]) = Some (Some 1).
Proof.
  exists [(dir ["a"; "b"], Unknown, 1); (dir ["a"; "b"; "c"], Unknown, 2); (dir ["a"; "b"], Unknown, 3)]. splits.
  - intros p ty I. cbn in I. in_cases; injection I as <- <-; (split; [split; [easy|cbn; intros J; in_cases; easy]|easy]).
  - unfold inserted_as. intros p ty I. cbn in I. in_cases; now injection I as <- <-.
  - reflexivity.
  - reflexivity.
Qed.
Theorem C40_branching_refuted : exists h : list (ins nat), well_formed h /\ (forall p ty, inserted_as h p ty -> ty = Unknown) /\
  last_value h (dir ["a"]) = Some 3 /\ contains (snd (run h)) (dir ["a"]) = false.
Proof.
  exists [(dir ["a"; "b"], Unknown, 1); (dir ["a"; "c"], Unknown, 2); (dir ["a"], Unknown, 3)]. splits.
  - intros p ty I. cbn in I. in_cases; injection I as <- <-; (split; [split; [easy|cbn; intros J; in_cases; easy]|easy]).
  - unfold inserted_as. intros p ty I. cbn in I. in_cases; now injection I as <- <-.
  - reflexivity.
  - reflexivity.
Qed.
(** a relative path of one component that does not exist gets an empty root, under which later paths are filed although another root
    holds them: the same path then stands twice in the tree, and an iteration yields both, one stale *)
Theorem C42_relative_refuted : exists h : list (ins nat), (forall p ty, inserted_as h p ty -> valid p) /\
  iter (snd (run h)) = [Some ([Name "a"], 2); Some ([Name "b"; Name "a"], 3); Some ([Name "b"; Name "a"], 1)].
Proof.
  exists [([Name "b"; Name "a"], Unknown, 1); ([Name "a"], Unknown, 2); ([Name "b"; Name "a"], Unknown, 3)]. split; [|reflexivity].
  unfold inserted_as. intros p ty I. cbn in I. in_cases; injection I as <- <-; (split; [easy|cbn; intros J; in_cases; easy]).
Qed.
(** C41 fails for an ancestor that was inserted before it existed *)
Theorem C41_unknown_refuted : exists h : list (ins nat), well_formed h /\ inserted h (dir ["a"; "b"]) /\
  nearest_ancestor (snd (run h)) (dir ["a"; "b"; "c"]) = Some None.
Proof.
  exists [(dir ["a"; "b"], Unknown, 1)]. splits; [|now left|reflexivity].
  intros p ty I. cbn in I. in_cases; injection I as <- <-; (split; [split; [easy|cbn; intros J; in_cases; easy]|easy]).
Qed.
(** C42 fails on settled histories too: an empty directory is not listed; [files] lists directories; [children] lists the path itself;
    a limit on the depth hides direct children *)
Definition h2 : list (ins nat) := [(dir ["s"; "c"], Dir, 1)].
Definition h3 : list (ins nat) := [(dir ["s"; "a"], Dir, 1); (dir ["s"; "a"; "x"], File, 2)].
Lemma h2_ok : well_formed h2 /\ settled h2.
Proof.
  split; [|unfold settled, inserted_as; splits].
  - intros p ty I. cbn in I. in_cases. injection I as <- <-. split; [split; [easy|cbn; intros J; in_cases; easy]|easy].
  - intros p ty I. cbn in I. in_cases. injection I as <- <-. easy.
  - intros p I J. cbn in I. in_cases. discriminate I.
  - intros p q I J. cbn in I. in_cases. discriminate I.
Qed.
Lemma h3_ok : well_formed h3 /\ settled h3.
Proof.
  split; [|unfold settled, inserted_as; splits].
  - intros p ty I. cbn in I. in_cases; injection I as <- <-; (split; [split; [easy|cbn; intros J; in_cases; easy]|easy]).
  - intros p ty I. cbn in I. in_cases; injection I as <- <-; easy.
  - intros p I J. cbn in I, J. in_cases; try discriminate I; try discriminate J. injection I as <-. discriminate J.
  - intros p q I J (r & R & E). unfold inserted in J. cbn in I, J. in_cases; try discriminate I; injection I as <-; rewrite E in J; cbn in J; [discriminate J|]. injection J as J. destruct R. congruence.
Qed.
Theorem C42_empty_directory_refuted : exists h : list (ins nat), well_formed h /\ settled h /\ inserted h (dir ["s"; "c"]) /\ iter (snd (run h)) = [].
Proof. exists h2. destruct h2_ok. splits; auto; now left. Qed.
Theorem C42_files_refuted : exists h : list (ins nat), well_formed h /\ settled h /\
  exists q, inserted_as h q Dir /\ In (Some (q, 1)) (files (snd (run h))).
Proof. exists h3. destruct h3_ok. splits; auto. exists (dir ["s"; "a"]). split; [now left|]. vm_compute. auto. Qed.
Theorem C42_children_refuted : exists h : list (ins nat), well_formed h /\ settled h /\
  children (snd (run h)) (dir ["s"; "a"]) None = [Some (dir ["s"; "a"], 1); Some (dir ["s"; "a"; "x"], 2)] /\
  children (snd (run h)) (dir ["s"; "a"]) (Some 1) = [].
Proof. exists h3. destruct h3_ok. splits; auto; reflexivity. Qed.
(** What the textual fallback makes of a relative path is the shortened path, in which only the first
    steps go up; an absolute path that does not step above the root keeps it. *)
Lemma shortened_trans a b c : shortened a b -> shortened b c -> shortened a c.
Proof. induction 1 as [|a b d S0 H IH]; auto. intros H'. apply sd_step with b; auto. Qed.
Definition ready (acc : path) : Prop := exists k names, rev acc = repeat Parent k ++ map Name names.
Lemma ready_name acc x : ready acc -> ready (Name x :: acc).
Proof. intros (k & n & E). exists k, (n ++ [x]). cbn [rev]. rewrite E, <- app_assoc, map_app. reflexivity. Qed.
Lemma ready_pop acc x : ready (Name x :: acc) -> ready acc.
Proof.
  intros (k & n & E). cbn [rev] in E. destruct n as [|y n] using rev_ind.
  - cbn [map] in E. rewrite app_nil_r in E. exfalso. assert (I : In (Name x) (repeat Parent k)) by (rewrite <- E; apply in_or_app; right; now left). apply repeat_spec in I. discriminate.
  - exists k, n. rewrite map_app, app_assoc in E. cbn [map] in E. now apply app_inj_tail in E.
Qed.
Lemma ready_parent acc : ready acc -> (acc = [] \/ exists r, acc = Parent :: r) -> ready (Parent :: acc).
Proof.
  intros (k & n & E) H. assert (n = []) as ->.
  { destruct H as [->|(r & ->)]; cbn [rev] in E.
    - symmetry in E. apply app_eq_nil in E as [_ E]. now apply map_eq_nil in E.
    - destruct n as [|y n] using rev_ind; [reflexivity|]. rewrite map_app, app_assoc in E. cbn [map] in E. apply app_inj_tail in E as [_ E]. discriminate. }
  exists (S k), []. cbn [rev map]. rewrite E. cbn [map]. rewrite !app_nil_r. change [Parent] with (repeat Parent 1). rewrite <- repeat_app. f_equal. lia.
Qed.
Lemma fallback_shortens cs : ~ In (Some Root) cs -> forall acc, ready acc ->
  shortened (map Some (rev acc) ++ cs) (map Some (fallback_go acc cs)) /\ steps_first (fallback_go acc cs).
Proof.
  induction cs as [|c cs IH]; intros R acc A; cbn [fallback_go].
  - rewrite app_nil_r. split; [apply sd_refl|exact A].
  - assert (R' : ~ In (Some Root) cs) by (intros I; apply R; now right). destruct c as [[| |x]|].
    + now elim R; left.
    + assert (Push : (acc = [] \/ exists r, acc = Parent :: r) -> shortened (map Some (rev acc) ++ Some Parent :: cs) (map Some (fallback_go (Parent :: acc) cs)) /\ steps_first (fallback_go (Parent :: acc) cs)).
      { intros H. destruct (IH R' (Parent :: acc) (ready_parent acc A H)) as [S0 F]. split; [|exact F]. cbn [rev] in S0. now rewrite map_app, <- app_assoc in S0. }
      destruct acc as [|[| |y] acc]; [apply Push; now left| |apply Push; eauto|].
      * exfalso. destruct A as (k & n & E). assert (I : In Root (repeat Parent k ++ map Name n)) by (rewrite <- E; cbn [rev]; apply in_or_app; right; now left).
        apply in_app_or in I as [I|I]; [apply repeat_spec in I; discriminate|]. apply in_map_iff in I as (z & Z & _). discriminate.
      * destruct (IH R' acc (ready_pop acc y A)) as [S0 F]. split; [|exact F]. cbn [rev]. rewrite map_app, <- app_assoc. eapply sd_step; [|exact S0]. apply sh_up.
    + destruct (IH R' (Name x :: acc) (ready_name acc x A)) as [S0 F]. split; [|exact F]. cbn [rev] in S0. now rewrite map_app, <- app_assoc in S0.
    + destruct (IH R' acc A) as [S0 F]. split; [|exact F]. eapply sd_step; [|exact S0]. apply sh_dot.
Qed.
Theorem C40_fallback_partial cs : ~ In (Some Root) cs ->
  shortened cs (map Some (fallback cs)) /\ steps_first (fallback cs) /\ ((forall p, fallback cs <> Parent :: p) -> fallback (Some Root :: cs) = Root :: fallback cs).
Proof.
  intros R. destruct (fallback_shortens cs R [] (ex_intro _ 0 (ex_intro _ [] eq_refl))) as [S0 F]. split; [exact S0|]. split; [exact F|]. intros N.
  unfold fallback in *. cbn [fallback_go].
  assert (G : forall cs acc, ~ In (Some Root) cs -> ready acc -> ~ In Parent acc -> ~ In Parent (fallback_go acc cs) -> fallback_go (acc ++ [Root]) cs = Root :: fallback_go acc cs).
  { clear. induction cs as [|c cs IH]; intros acc R A P NP; cbn [fallback_go] in *; [now rewrite rev_app_distr|].
    assert (R' : ~ In (Some Root) cs) by (intros I; apply R; now right). destruct c as [[| |x]|].
    - now elim R; left.
    - destruct acc as [|[| |y] acc].
      + exfalso. apply NP. clear -R'. assert (K : forall cs acc, ~ In (Some Root) cs -> ready acc -> In Parent acc -> In Parent (fallback_go acc cs)).
        { clear. induction cs as [|c cs IH]; intros acc R A P; cbn [fallback_go]; [now apply in_rev in P|]. assert (R' : ~ In (Some Root) cs) by (intros I; apply R; now right). destruct c as [[| |x]|].
          - now elim R; left.
          - destruct acc as [|[| |y] acc]; [destruct P| | |].
            + exfalso. destruct A as (k & n & E). assert (I : In Root (repeat Parent k ++ map Name n)) by (rewrite <- E; cbn [rev]; apply in_or_app; right; now left).
              apply in_app_or in I as [I|I]; [apply repeat_spec in I; discriminate|]. apply in_map_iff in I as (z & Z & _). discriminate.
            + apply IH; auto; [apply ready_parent; eauto|now left].
            + apply IH; auto; [now apply ready_pop in A|]. destruct P as [P|P]; [discriminate|exact P].
          - apply IH; auto; [now apply ready_name|now right].
          - now apply IH. }
        apply K; auto; [|now left]. apply ready_parent; [exists 0, []; reflexivity|now left].
      + exfalso. destruct A as (k & n & E). assert (I : In Root (repeat Parent k ++ map Name n)) by (rewrite <- E; cbn [rev]; apply in_or_app; right; now left).
        apply in_app_or in I as [I|I]; [apply repeat_spec in I; discriminate|]. apply in_map_iff in I as (z & Z & _). discriminate.
      + elim P. now left.
      + cbn [app]. apply IH; auto; [now apply ready_pop in A|]. intros I. apply P. now right.
    - change (Name x :: acc ++ [Root]) with ((Name x :: acc) ++ [Root]). apply IH; auto; [now apply ready_name|]. intros [I|I]; [discriminate|now apply P].
    - now apply IH. }
  apply (G cs []); auto; [exists 0, []; reflexivity|]. intros I. destruct F as (k & n & E). rewrite E in *. destruct k as [|k]; [|now apply (N (repeat Parent k ++ map Name n))].
  cbn in I. apply in_map_iff in I as (z & Z & _). discriminate.
Qed.
Example C40_fallback_ex : fallback [Some Root; Some (Name "a"); None; Some (Name "b"); Some Parent; Some (Name "c")] = [Root; Name "a"; Name "c"].
Proof. reflexivity. Qed.
(** the textual fallback drops the root of an absolute path that begins with a step up: [/../x] names what [x] names *)
Theorem C40_fallback_refuted : fallback [Some Root; Some Parent; Some (Name "x")] = [Name "x"] /\ fallback [Some (Name "x")] = [Name "x"].
Proof. split; reflexivity. Qed.

Print Assumptions C40_lookup_partial.
Print Assumptions C40_settled_partial.
Print Assumptions C40_fallback_partial.
Print Assumptions C41_directories_partial.
Print Assumptions C41_nearest_partial.
Print Assumptions C42_iter_partial.
Print Assumptions C42_children_partial.
