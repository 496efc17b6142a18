(** Properties of the sets of patterns of CHECK-NOT (C73) and CHECK-DAG (C74). *)
From Coq Require Import String Sorted Permutation.
From Verif Require Import Base Text_Model Cursor_Model Check_Model Check_Spec Lit_Model Lit_Spec Lit_Proofs Env_Model Num_Model Gram_Model Parse_Model
  Regex_Model Regex_Spec Regex_Proofs Regex_Engine Regex_Frame Smart_Model Smart_Spec Smart_Static Smart_Parts Smart_Props
  PatSet_Model PatSet_Spec PatSet_Proofs PatSet_Engine PatSet_Dag.
Open Scope string_scope.
Open Scope list_scope.
Open Scope nat_scope.
Ltac splits := repeat match goal with |- _ /\ _ => split end.

(** The texts of the regular expressions of a set that is not made of literals only *)
Definition expressions (l : list spat) : list str := map (fun c => flat_map part_text (parts_of (sp_pat c))) l.
Lemma expressions_ok ci l : Forall (fun c => fixed ci (sp_pat c)) l -> map fst (map (fun c => into_regex (pre (sp_pat c))) l) = expressions l.
Proof.
  intros F. rewrite map_map. unfold expressions. induction F as [|c l Fc F IH]; [reflexivity|]. cbn [map]. rewrite IH. f_equal.
  rewrite (proj2 (fixed_pre _ _ Fc)). unfold written. destruct (only_text (sp_pat c)) eqn:O; cbn [fst into_regex]; [|reflexivity]. symmetry. now apply escape_literals.
Qed.
Lemma new_rmatcher_ok T ci l : set_ok T -> Forall (fun c => fixed ci (sp_pat c)) l ->
  match rs_build T ci (expressions l) with
  | Some x => exists m, new_rmatcher T ci (map (fun c => into_regex (pre (sp_pat c))) l) = Val m
  | None => new_rmatcher T ci (map (fun c => into_regex (pre (sp_pat c))) l) = Err
  end.
Proof.
  intros OK F. unfold new_rmatcher. rewrite (expressions_ok ci l F). destruct (rs_build T ci (expressions l)) as [x|] eqn:R; [|reflexivity].
  destruct (forallb _ _); [eauto|].
  assert (F' : Forall (fixed ci) (map sp_pat l)) by (apply Forall_map; exact F).
  destruct (build_all_spec ci _ F') as (xs & B & H). rewrite map_map in B. rewrite <- (map_map (fun c => into_regex (pre (sp_pat c))) fst) in B.
  assert (H' : Forall2 (fun c y => exists gs, as_regex_ok ci (sp_pat c) (fst (into_regex (pre (sp_pat c)))) (snd (into_regex (pre (sp_pat c)))) y gs) l xs).
  { clear -H. remember (map sp_pat l) as l' eqn:El. revert l El. induction H; intros [|d l0] El; try discriminate; [constructor|]. cbn in El. injection El as -> ->. constructor; auto. }
  rewrite <- (expressions_ok ci l F) in R.
  destruct (set_defs_spec T OK ci l x xs B R H') as (defs & -> & _). cbn [bind]. eauto.
Qed.
Lemma ascii_builds ci l : Forall (fun c => fixed ci (sp_pat c)) l -> exists xs, build_all ci (expressions l) = Some xs.
Proof.
  intros F. assert (F' : Forall (fixed ci) (map sp_pat l)) by (apply Forall_map; exact F).
  destruct (build_all_spec ci _ F') as (xs & B & _). rewrite map_map, <- (map_map (fun c => into_regex (pre (sp_pat c))) fst), (expressions_ok ci l F) in B. eauto.
Qed.
(** A set of patterns that do not depend on variables, are distinct, and are not all literals compiles, if the
    automaton for its regular expressions can be built. *)
Lemma set_compiles E T ci strict l : set_ok T -> Forall (fun c => fixed ci (sp_pat c)) l -> NoDup (map (fun c => written (sp_pat c)) l) ->
  forallb (fun c => only_text (sp_pat c)) l = false ->
  match rs_build T ci (expressions l) with
  | Some _ => exists m, new_rmatcher T ci (map (fun c => into_regex (pre (sp_pat c))) l) = Val m /\ compile_set E T ci strict l = Val (SRegex E T (map sp_at l) m)
  | None => compile_set E T ci strict l = Err
  end.
Proof.
  intros OK F D A. rewrite compile_regexes by auto. pose proof (new_rmatcher_ok T ci l OK F) as N. destruct (rs_build T ci (expressions l)).
  - destruct N as (m & ->). exists m. split; reflexivity.
  - now rewrite N.
Qed.

(** * CHECK-NOT *)
(** C73: the patterns of CHECK-NOT directives that do not depend on variables: a match of one of them is
    reported, the one that ends first, if any of them matches anywhere in the range; the only error there can
    be is a captured number that is not one. *)
Theorem not_patterns_partial : forall E T ci strict fuel l, set_ok T ->
  Forall (fun c => fixed ci (sp_pat c)) l -> NoDup (map (fun c => written (sp_pat c)) l) -> forallb (fun c => only_text (sp_pat c)) l = false ->
  rs_build T ci (expressions l) <> None ->
  exists m, compile_set E T ci strict l = Val m /\
    forall b n s e env0, s <= e -> e <= length b ->
    exists r, any_match E T ci fuel b n m (mkRange s e) env0 = Some (Val r) /\ not_outcome ci b l s e env0 r /\
      forall i, m_info (fst r) = Some i -> ends_first ci b l s e (rend (i_span i)).
Proof.
  intros E T ci strict fuel l OK F D A Bd. pose proof (set_compiles E T ci strict l OK F D A) as C.
  destruct (rs_build T ci (expressions l)); [|easy]. destruct C as (m & Hm & C). eexists. split; [exact C|].
  intros b n s e env0 L Le. destruct (rmatcher_spec T OK ci l F m Hm b s e L Le) as (M & O & I). cbn [any_match].
  destruct (rs_matches T (rm_set T m) b (mkRange s e)) as [|h hs].
  - eexists. split; [reflexivity|]. split; [|cbn; discriminate]. apply no_none. intros c i j cs Hc Ls Hm'. apply In_nth_error in Hc as (k & Hk).
    apply (proj2 (M k i j)). exists c, cs. auto.
  - destruct (I h (or_introl eq_refl)) as (x & -> & Hx). cbn [bind]. eexists. split; [reflexivity|].
    destruct Hx as [k c i j j' cs vs Nc Ls Lj Mt V|k c i j j' cs Nc Ls Mt V]; cbn [fst snd].
    + split; [apply no_found with cs; auto|]. intros i0 [= <-]. cbn [i_span rend]. intros c' i' j2 cs' Hc Li' Mt'. apply In_nth_error in Hc as (k' & Hk').
      assert (Hin : In (k', mkRange i' j2) ((k, mkRange i j) :: hs)) by (apply M; eauto). apply StronglySorted_inv in O as [_ Fh]. destruct Hin as [[= <- <- <-]|Hin]; [exact Lj|].
      rewrite Forall_forall in Fh. apply Fh in Hin. unfold by_end in Hin. cbn in Hin. lia.
    + split; [|cbn; discriminate]. apply no_bad with k c i j' cs; auto.
Qed.
Print Assumptions not_patterns_partial.
(** ... and for literals: the leftmost one, the longest there *)
Definition literal_text_of (strict : bool) (c : spat) : str := canonicalize_horizontal_whitespace (fst (written (sp_pat c))) strict.
Lemma canonical_length s strict : length (canonicalize_horizontal_whitespace s strict) = length s.
Proof. unfold canonicalize_horizontal_whitespace. destruct strict; [easy|]. destruct (existsb _ s); [apply map_length|easy]. Qed.
Lemma fixed_text ci c : fixed ci c -> only_text c = true -> fst (written c) <> [].
Proof.
  intros F O. unfold written. rewrite O. cbn [fst]. destruct c as [|s|s|l]; cbn [fixed parts_of flat_map literal_of] in *; [easy|now rewrite app_nil_r|discriminate|].
  destruct F as (_ & _ & _ & N). specialize (N O). rewrite escape_literals in N by exact O. intros H. rewrite H in N. now apply N.
Qed.
Lemma new_lits_ok ci strict l : Forall (fun c => fixed ci (sp_pat c)) l -> forallb (fun c => only_text (sp_pat c)) l = true ->
  exists ls, new_lits strict (map (fun c => (sp_at c, fst (written (sp_pat c)))) l) = Val ls /\ map lit_text ls = map (literal_text_of strict) l /\ map lit_span ls = map sp_at l.
Proof.
  induction 1 as [|c l Fc F IH]; cbn [map forallb]; intros A; [exists []; splits; reflexivity|]. apply andb_true_iff in A as [A1 A2]. destruct (IH A2) as (ls & E1 & E2 & E3).
  pose proof (fixed_text _ _ Fc A1) as N. cbn [new_lits]. unfold canonical. destruct (canonicalize_horizontal_whitespace (fst (written (sp_pat c))) strict) as [|x t] eqn:Ex.
  - exfalso. apply N. apply length_zero_iff_nil. rewrite <- (canonical_length _ strict), Ex. reflexivity.
  - rewrite E1. cbn [bind]. eexists. split; [reflexivity|]. cbn [map]. unfold literal_text_of at 1. rewrite E2, E3, Ex. split; reflexivity.
Qed.
(** A text stands at [i] in the range *)
Definition stands (ci : bool) (b : bytes) (t : str) (s e i : nat) : Prop := s <= i /\ i + length t <= e /\ text_at ci b t i.
Theorem not_texts : forall E T ci strict fuel l,
  Forall (fun c => fixed ci (sp_pat c)) l -> NoDup (map (fun c => written (sp_pat c)) l) -> forallb (fun c => only_text (sp_pat c)) l = true ->
  exists m, compile_set E T ci strict l = Val m /\
    forall b n s e env0, s <= e ->
    (exists k c i, nth_error l k = Some c /\ stands ci b (literal_text_of strict c) s e i /\
       (forall d j, In d l -> stands ci b (literal_text_of strict d) s e j -> i <= j /\ (j = i -> length (literal_text_of strict d) <= length (literal_text_of strict c))) /\
       any_match E T ci fuel b n m (mkRange s e) env0 =
         Some (Val (mkRes Good (Some (mkInfo (mkRange i (i + length (literal_text_of strict c))) k (sp_at c))), env0))) \/
    ((forall d i, In d l -> ~ stands ci b (literal_text_of strict d) s e i) /\ any_match E T ci fuel b n m (mkRange s e) env0 = Some (Val (failed ENone, env0))).
Proof.
  intros E T ci strict fuel l F D A. rewrite compile_texts by auto. destruct (new_lits_ok ci strict l F A) as (ls & -> & Et & Es). cbn [bind]. eexists. split; [reflexivity|].
  intros b n s e env0 L. cbn [any_match rstart rend]. pose proof (leftmost_set_spec ci b ls e (e - s) s ltac:(lia)) as Sp.
  assert (Nth : forall k p, nth_error ls k = Some p -> exists c, nth_error l k = Some c /\ lit_text p = literal_text_of strict c /\ lit_span p = sp_at c).
  { intros k p Hk. assert (H1 := map_nth_error lit_text _ _ Hk). assert (H2 := map_nth_error lit_span _ _ Hk). rewrite Et in H1. rewrite Es in H2. rewrite nth_error_map in H1, H2.
    destruct (nth_error l k) as [c|]; [|discriminate]. injection H1 as H1. injection H2 as H2. exists c. auto. }
  assert (All : forall d, In d l -> exists q, In q ls /\ lit_text q = literal_text_of strict d).
  { intros d Hd. apply (in_map (literal_text_of strict)) in Hd. rewrite <- Et in Hd. apply in_map_iff in Hd as (q & H1 & H2). eauto. }
  destruct (leftmost_set ci b ls e (e - s) s) as [[[i k] p]|].
  - left. destruct Sp as (N & (O1 & O2 & O3) & Lm & Lg). destruct (Nth k p N) as (c & Nc & Ec & Ep). rewrite Ec, Ep in *. exists k, c, i. splits; auto; [split; auto|].
    intros d j Hd (J1 & J2 & J3). destruct (All d Hd) as (q & Hq & Eq). rewrite <- Eq in *. split; [apply (Lm q); auto; split; auto|]. intros ->. apply Lg; auto. split; auto.
  - right. split; [|reflexivity]. intros d i Hd (J1 & J2 & J3). destruct (All d Hd) as (q & Hq & Eq). rewrite <- Eq in *. apply (Sp q i Hq). split; auto.
Qed.
Print Assumptions not_texts.

(** * CHECK-DAG *)
(** C74: the patterns of CHECK-DAG directives that do not depend on variables: if it succeeds, every pattern has
    been matched exactly once and its variables are defined, the cursor is not before the end of any of the
    matches; ... *)
Theorem dag_patterns_partial : forall E T ci strict scoped fuel l, set_ok T ->
  Forall (fun c => fixed ci (sp_pat c)) l -> NoDup (map (fun c => written (sp_pat c)) l) -> forallb (fun c => only_text (sp_pat c)) l = false ->
  rs_build T ci (expressions l) <> None ->
  exists m, compile_set E T ci strict l = Val m /\
    forall b n s e env0, s <= e -> e <= length b ->
    exists ms env1 pos, dag_match E T ci scoped fuel b n m (mkRange s e) env0 = Some (Val (ms, env1, pos)) /\
      (ms_ok ms = true -> dag_found ci b l s e env0 ms env1 /\
         exists p, pos = Some p /\ s <= p <= e /\ forall i, In i (infos ms) -> rend (i_span i) <= p) /\
      (no_clash ci b l s e -> no_numbers l ->
         ms_ok ms = true <-> forall c, In c l -> exists i j cs, s <= i /\ matches_at ci b e (sp_pat c) i j cs).
Proof.
  intros E T ci strict scoped fuel l OK F D A Bd. pose proof (set_compiles E T ci strict l OK F D A) as C.
  destruct (rs_build T ci (expressions l)); [|easy]. destruct C as (m & Hm & C). eexists. split; [exact C|].
  intros b n s e env0 L Le. destruct (rmatcher_spec T OK ci l F m Hm b s e L Le) as (M & O & I). cbn [dag_match].
  assert (Ne : 0 < length l) by (destruct l; [discriminate|cbn; lia]).
  destruct (visit_run T ci l m b s e env0 (rs_matches T (rm_set T m) b (mkRange s e)) I) with (acc := @nil (minfo * list (vname * value))) (ms := @nil mresult) (env1 := env0)
    as (ms & env1 & pos & Ev & R); auto.
  - intros [k [i j]] Hh. apply M in Hh as (c & cs & Nc & Ls & Li & P). apply pieces_bounds in P as [_ P]. cbn. auto.
  - split; [reflexivity|constructor|constructor|constructor|reflexivity].
  - intros a h [].
  - intros _ k c i j cs Nc Ls Mt. right. apply M. eauto.
  - exists ms, env1, pos. rewrite map_length, Ev. split; [reflexivity|].
    destruct R as [(Nok & -> & Np)|(acc & p & G & Lm & -> & Lp & Hp)].
    + rewrite Nok. split; [discriminate|]. intros Nc Nn. split; [discriminate|]. intros H. exfalso. apply Np. split; [split; auto|auto].
    + assert (Ok : ms_ok ms = true).
      { unfold ms_ok. apply forallb_forall. intros x Hx. apply (Permutation_in x (Permutation_sym (go_perm _ _ _ _ _ _ _ _ _ G))) in Hx. apply in_map_iff in Hx as (a & <- & _). reflexivity. }
      assert (Df : dag_found ci b l s e env0 ms env1).
      { exists acc. splits; [exact (go_perm _ _ _ _ _ _ _ _ _ G)|exact (got_perm _ _ _ _ _ _ _ _ _ G Lm)|exact (go_one _ _ _ _ _ _ _ _ _ G)|exact (go_apart _ _ _ _ _ _ _ _ _ G)|exact (go_env _ _ _ _ _ _ _ _ _ G)]. }
      assert (One : forall a, In a acc -> s <= rend (i_span (fst a))).
      { intros a Ha. pose proof (go_one _ _ _ _ _ _ _ _ _ G) as Fo. rewrite Forall_forall in Fo. destruct (Fo a Ha) as (k & c & i & j & cs & _ & Ls & [_ P] & _ & ->). apply pieces_bounds in P as [P _]. cbn. lia. }
      split.
      * intros _. split; [exact Df|]. exists p. splits; auto.
        -- destruct acc as [|a acc]; [apply got_length in G; cbn in G; lia|]. pose proof (One a (or_introl eq_refl)). pose proof (Hp a (or_introl eq_refl)). lia.
        -- intros i Hi. apply (Permutation_in i (Permutation_sym (got_infos _ _ _ _ _ _ _ _ _ G))) in Hi. apply in_map_iff in Hi as (a & <- & Ha). auto.
      * intros _ _. split; [|auto]. intros _ c Hc. apply In_nth_error in Hc as (k & Hk).
        assert (Hin : In k (map (fun a => i_id (fst a)) acc)).
        { apply (Permutation_in k (Permutation_sym (got_perm _ _ _ _ _ _ _ _ _ G Lm))). apply in_seq. split; [lia|]. apply nth_error_Some. congruence. }
        apply in_map_iff in Hin as (a & Ea & Ha). pose proof (go_one _ _ _ _ _ _ _ _ _ G) as Fo. rewrite Forall_forall in Fo. destruct (Fo a Ha) as (k' & c' & i & j & cs & Nc & Ls & Mt & _ & Ef).
        rewrite Ef in Ea. cbn in Ea. subst k'. assert (c' = c) by congruence. subst c'. eauto.
Qed.
Print Assumptions dag_patterns_partial.
(** ... and literals: the sets of Lit_Model, about which C13 and C16 to C18 speak *)
Theorem texts_as_literals : forall E T ci strict scoped fuel l,
  Forall (fun c => fixed ci (sp_pat c)) l -> NoDup (map (literal_text_of strict) l) -> forallb (fun c => only_text (sp_pat c)) l = true ->
  exists m ls, compile_set E T ci strict l = Val m /\ map lit_text ls = map (literal_text_of strict) l /\ map lit_span ls = map sp_at l /\
    forall b n r env0, any_match E T ci fuel b n m r env0 = Some (Val (lit_any ci ls b r, env0)) /\
      dag_match E T ci scoped fuel b n m r env0 = Some (do (ms, pos) <- lit_dag ls b r; Val (ms, env0, pos)).
Proof.
  intros E T ci strict scoped fuel l F D A. rewrite compile_texts; auto.
  - destruct (new_lits_ok ci strict l F A) as (ls & -> & Et & Es). cbn [bind]. eexists _, ls. splits; [reflexivity|exact Et|exact Es|]. intros b n r env0. cbn [any_match dag_match].
    unfold lit_any, lit_dag; rewrite dedup_id by (now rewrite Et). split; reflexivity.
  - clear F A. induction l as [|c l IH]; [constructor|]. cbn [map] in *. inversion D as [|? ? N D']; subst. constructor; [|now apply IH].
    intros H. apply in_map_iff in H as (d & Ed & Hd). apply N. apply in_map_iff. exists d. split; [|exact Hd]. unfold literal_text_of. now rewrite Ed.
Qed.
Print Assumptions texts_as_literals.

(** * Examples *)
(** The patterns of directives that stand on lines 1, 2, ... *)
Definition directives (l : list cpat) : list spat := map (fun p => mkPat (10 * fst p) (Z.of_nat (S (fst p))) (snd p)) (combine (seq 0 (length l)) l).
Definition check_not (ci strict : bool) (l : list cpat) (defs : list (vname * value)) (t : bytes) : option (res (mresult * @bindings value)) :=
  match compile_set ascii_engine ascii_set ci strict (directives l) with
  | Val m => any_match ascii_engine ascii_set ci 50 t 50 m (mkRange 0 (length t)) (env_from_config defs)
  | Err => Some Err
  | Panic => Some Panic
  end.
Definition check_dag (ci strict : bool) (l : list cpat) (defs : list (vname * value)) (t : bytes) : option (res (matches * @bindings value * option nat)) :=
  match compile_set ascii_engine ascii_set ci strict (directives l) with
  | Val m => dag_match ascii_engine ascii_set ci false 50 t 50 m (mkRange 0 (length t)) (env_from_config defs)
  | Err => Some Err
  | Panic => Some Panic
  end.
Definition verdict (r : option (res (matches * @bindings value * option nat))) : option (res (matches * option nat)) :=
  option_map (fun x => do (y, p) <- x; Val (fst y, p)) r.
Definition lit (s : string) : cpat := PLit (str_of s).
Definition rgx (s : string) : cpat := PRegex (str_of s).
Definition hit (k i j : nat) : mresult := mkRes Good (Some (mkInfo (mkRange i j) k (10 * k))).
Definition uses (v : string) : part := QMatch (MSubst (User (str_of v)) None).

Definition calls : list cpat :=
  [lit "ret"; rgx "b+"; PParts [QLit (str_of "call "); QMatch (MSubst reg (Some (str_of "[a-z]+"))); QLit (str_of "!")]].
Lemma calls_fixed : Forall (fun c => fixed false (sp_pat c)) (directives calls) /\ NoDup (map (fun c => written (sp_pat c)) (directives calls)) /\
  forallb (fun c => only_text (sp_pat c)) (directives calls) = false /\ rs_build ascii_set false (expressions (directives calls)) <> None.
Proof.
  splits.
  - constructor; [discriminate|]. constructor; [eexists; vm_compute; reflexivity|]. constructor; [|constructor]. cbn [sp_pat fixed directives map snd combine seq length calls].
    splits; [discriminate| | |discriminate].
    + constructor; [constructor|]. constructor; [eapply st_def; [vm_compute; reflexivity|vm_compute; auto]|]. repeat constructor.
    + vm_compute. repeat constructor. intros [].
  - vm_compute. repeat constructor; cbn; intuition discriminate.
  - reflexivity.
  - vm_compute. discriminate.
Qed.
Example calls_not : seen ["REG"] (check_not false false calls [] (str_of "x call f! ret bb")) =
  Some (Val (hit 2 2 9, [Some (VStr (str_of "f"))])).
Proof. vm_compute. reflexivity. Qed.
Example calls_not_none : seen ["REG"] (check_not false false calls [] (str_of "x call F! re a")) = Some (Val (failed ENone, [None])).
Proof. vm_compute. reflexivity. Qed.
Example calls_dag : verdict (check_dag false false calls [] (str_of "x call f! ret cbb")) = Some (Val ([hit 2 2 9; hit 0 10 13; hit 1 15 16], Some 16)).
Proof. vm_compute. reflexivity. Qed.

(** * What fails *)
(** The regular expression {{a.b}} is dropped if the literal a.b stands before it. *)
Theorem dropped_pattern_refuted : exists t : bytes,
  seen [] (check_not false false [rgx "a.b"] [] t) = Some (Val (hit 0 0 3, [])) /\
  seen [] (check_not false false [lit "a.b"; rgx "a.b"] [] t) = Some (Val (failed ENone, [])).
Proof. exists (str_of "axb"). split; vm_compute; reflexivity. Qed.
Print Assumptions dropped_pattern_refuted.
(** Compilation panics: patterns that are repeated twice; a pattern that another one continues. *)
Theorem set_panics_refuted :
  compile_set ascii_engine ascii_set false false (directives [lit "a"; lit "a"; lit "b"; lit "b"]) = Panic /\
  compile_set ascii_engine ascii_set false false (directives [lit "foo"; PParts [QLit (str_of "foo"); uses "X"]]) = Panic.
Proof. split; vm_compute; reflexivity. Qed.
Print Assumptions set_panics_refuted.
(** ... and matching does, if a literal follows a variable. *)
Theorem set_suffix_refuted :
  check_not false false [PParts [uses "X"; QLit (str_of "bar")]] [(User (str_of "X"), VStr (str_of "foo"))] (str_of "foobar") = Some Panic /\
  check_dag false false [PParts [uses "X"; QLit (str_of "bar")]] [(User (str_of "X"), VStr (str_of "foo"))] (str_of "foobar") = Some Panic.
Proof. split; vm_compute; reflexivity. Qed.
Print Assumptions set_suffix_refuted.
(** CHECK-DAG takes the match that ends first: one letter for {{a+}}; it does not look for another one if that
    leaves no room for another pattern; and matches may lie one in the other. *)
Theorem dag_choice_refuted :
  verdict (check_dag false false [rgx "a+"] [] (str_of "aaa")) = Some (Val ([hit 0 0 1], Some 1)) /\
  (exists ms, verdict (check_dag false false [rgx "a"; rgx "ab"] [] (str_of "ab a")) = Some (Val (ms, None)) /\ ms_ok ms = false) /\
  verdict (check_dag false false [rgx "b"; rgx "abc"] [] (str_of "abc")) = Some (Val ([hit 1 0 3; hit 0 1 2], Some 3)).
Proof. splits; [vm_compute; reflexivity| |vm_compute; reflexivity]. eexists. split; vm_compute; reflexivity. Qed.
Print Assumptions dag_choice_refuted.
(** Literals of CHECK-DAG are case sensitive even if case is ignored; two that differ in the kind of their
    spaces only are never both matched. *)
Theorem dag_texts_refuted :
  (exists ms, verdict (check_dag true false [lit "FOO"] [] (str_of "foo")) = Some (Val (ms, None)) /\ ms_ok ms = false) /\
  seen [] (check_not true false [lit "FOO"] [] (str_of "foo")) = Some (Val (hit 0 0 3, [])) /\
  (exists ms, verdict (check_dag false false [lit "a b"; PLit (str_of "a" ++ [9%N] ++ str_of "b")] [] (str_of "a b a b")) = Some (Val (ms, None)) /\ ms_ok ms = false).
Proof. splits; [|vm_compute; reflexivity|]; eexists; split; vm_compute; reflexivity. Qed.
Print Assumptions dag_texts_refuted.
(** With variables CHECK-DAG does not move the cursor. *)
Theorem dag_cursor_refuted : exists ms,
  verdict (check_dag false false [PParts [uses "X"]] [(User (str_of "X"), VStr (str_of "foo"))] (str_of "foo bar")) = Some (Val (ms, None)) /\ ms_ok ms = true.
Proof. eexists. split; vm_compute; reflexivity. Qed.
Print Assumptions dag_cursor_refuted.
(** CHECK-NOT: [[X]]{{b}} never ends, however many rounds of the loop in any.rs:230 are made, if the text of X
    stands in the range and no b follows it. *)
Theorem not_ends_refuted : exists m : mset ascii_engine ascii_set,
  compile_set ascii_engine ascii_set false false (directives [PParts [uses "X"; QRegex (str_of "b")]]) = Val m /\
  forall n, any_match ascii_engine ascii_set false 50 (str_of "ac") n m (mkRange 0 2) (env_from_config [(User (str_of "X"), VStr (str_of "a"))]) = None.
Proof.
  eexists. split; [vm_compute; reflexivity|]. intros n. cbn [any_match rstart rend].
  set (env0 := env_from_config _).
  match goal with |- any_loop _ _ _ _ _ _ (XAny _ _ ?p _ _ _ _) ?q _ _ = _ => set (ps := p); set (ss := q) end.
  assert (G : forall n last, any_loop ascii_engine ascii_set false 50 (str_of "ac") n (XAny ascii_engine ascii_set ps 0 [] [] last) ss 2 env0 = None \/ (last <> None /\ last <> Some 1)).
  { clear n. induction n as [|n IH]; intros last; [now left|]. destruct last as [[|[|k]]|]; try (right; split; discriminate); left.
    - cbn [any_loop]. replace (next _ _ _ _ _ _ _ _) with (Some (Val ((found_at (mkRange 0 1) 0 0, @nil (vname * value)), XAny ascii_engine ascii_set ps 0 [] [] (Some 1)))) by (vm_compute; reflexivity).
      cbn [found_at m_info m_ty PatSet_Model.last_end i_id nth_error ss].
      replace (any_suffix _ _ _ _ _ _ _ _ _) with (Some (@Val (env + mresult * env) (inl env0))) by reflexivity.
      destruct (IH (Some 1)) as [H|[_ H]]; [exact H|now elim H].
    - cbn [any_loop]. replace (next _ _ _ _ _ _ _ _) with (Some (Val ((found_at (mkRange 0 1) 0 0, @nil (vname * value)), XAny ascii_engine ascii_set ps 0 [] [] (Some 1)))) by (vm_compute; reflexivity).
      cbn [found_at m_info m_ty PatSet_Model.last_end i_id nth_error ss].
      replace (any_suffix _ _ _ _ _ _ _ _ _) with (Some (@Val (env + mresult * env) (inl env0))) by reflexivity.
      destruct (IH (Some 1)) as [H|[_ H]]; [exact H|now elim H]. }
  destruct (G n None) as [H|[H _]]; [exact H|now elim H].
Qed.
Print Assumptions not_ends_refuted.
