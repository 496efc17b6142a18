(** CHECK-DAG with patterns that do not depend on variables. *)
From Coq Require Import String Sorted Permutation.
From Verif Require Import Base Text_Model Cursor_Model Check_Model Check_Spec Lit_Model Lit_Spec Lit_Proofs Env_Model Num_Model Gram_Model Parse_Model
  Regex_Model Regex_Spec Regex_Proofs Regex_Engine Regex_Frame Smart_Model Smart_Spec Smart_Static Smart_Parts PatSet_Model PatSet_Spec PatSet_Proofs.
Open Scope list_scope.
Open Scope nat_scope.
Ltac splits := repeat match goal with |- _ /\ _ => split end.

Lemma push_perm ms r : Permutation (r :: ms) (ms_push ms r).
Proof.
  induction ms as [|x t IH]; cbn [ms_push]; [reflexivity|]. destruct (before x r); [|reflexivity].
  etransitivity; [apply perm_swap|]. now constructor.
Qed.
Lemma ord_pairs_snoc {A} (R : A -> A -> Prop) l x : ForallOrdPairs R l -> Forall (fun y => R y x) l -> ForallOrdPairs R (l ++ [x]).
Proof.
  induction 1 as [|a l F H IH]; intros G; [repeat constructor|]. inversion G as [|? ? G1 G2]; subst. cbn. constructor; [|now apply IH].
  apply Forall_app. split; [exact F|now constructor].
Qed.
Lemma pieces_caps ci b e l i j cs : pieces ci b e l i j cs -> map fst cs = flat_map part_caps l.
Proof.
  induction 1 as [|q l i k j cs ds P H IH]; [reflexivity|]. cbn [flat_map]. rewrite map_app, IH. f_equal. apply piece_caps in P as ->. rewrite map_map. cbn. apply map_id.
Qed.
Lemma strings_have_values cs : (forall c, In c (map fst cs) -> k_ty c = TyStr) -> exists vs, values_for cs vs.
Proof.
  induction cs as [|[c t] cs IH]; intros H; [exists []; constructor|]. destruct IH as (vs & Hv); [intros d Hd; apply H; now right|].
  exists ((k_name c, VStr t) :: vs). constructor; [|exact Hv]. cbn [fst snd]. split; [reflexivity|]. rewrite (H c (or_introl eq_refl)). constructor.
Qed.
Lemma pieces_bounds ci b e l i j cs : pieces ci b e l i j cs -> i <= j /\ (i <= e -> j <= e).
Proof.
  induction 1 as [|q l i k j cs ds P H IH]; [lia|]. assert (i <= k /\ (i <= e -> k <= e)); [|lia].
  destruct P; try lia; eapply (proj1 (lang_bounds _ _ _)); eauto.
Qed.
Lemma infos_good {A} (f : A -> minfo) l : infos (map (fun a => mkRes Good (Some (f a))) l) = map f l.
Proof. induction l as [|a l IH]; [reflexivity|]. cbn. now f_equal. Qed.
Lemma perm_infos l m : Permutation l m -> Permutation (infos l) (infos m).
Proof.
  induction 1 as [|x l m P IH|x y l|l m n P1 IH1 P2 IH2]; cbn [infos]; [constructor| | |etransitivity; eauto].
  - destruct (m_info x); [now constructor|easy].
  - destruct (m_info x), (m_info y); try reflexivity. apply perm_swap.
Qed.

Section Dag.
Context (T : set_engine) (ci : bool) (l : list spat) (m : rmatcher T) (b : bytes) (s e : nat).
Notation ats := (map sp_at l).
Record got (env0 : @bindings value) (acc : list (minfo * list (vname * value))) (ms : matches) (env1 : @bindings value) : Prop := {
  go_perm : Permutation (map (fun a => mkRes Good (Some (fst a))) acc) ms;
  go_nodup : NoDup (map (fun a => i_id (fst a)) acc);
  go_one : Forall (dag_one ci b l s e) acc;
  go_apart : ForallOrdPairs apart acc;
  go_env : env1 = defined env0 (flat_map snd acc) }.
Lemma got_infos env0 acc ms env1 : got env0 acc ms env1 -> Permutation (map fst acc) (infos ms).
Proof. intros G. rewrite <- (infos_good fst). apply perm_infos. apply (go_perm _ _ _ _ G). Qed.
Lemma got_id env0 acc ms env1 k : got env0 acc ms env1 -> In k (map i_id (infos ms)) <-> In k (map (fun a => i_id (fst a)) acc).
Proof.
  intros G. replace (map (fun a => i_id (fst a)) acc) with (map i_id (map fst acc)) by apply map_map. apply got_infos in G. apply (Permutation_map i_id) in G.
  split; apply Permutation_in; [now symmetry|exact G].
Qed.
Lemma got_length env0 acc ms env1 : got env0 acc ms env1 -> length ms = length acc.
Proof. intros G. apply go_perm in G. apply Permutation_length in G. now rewrite map_length in G. Qed.
Lemma got_bound env0 acc ms env1 a : got env0 acc ms env1 -> In a acc -> i_id (fst a) < length l.
Proof. intros G Ha. pose proof (go_one _ _ _ _ G) as O. rewrite Forall_forall in O. destruct (O a Ha) as (k & c & i & j & cs & N & _ & _ & _ & ->). cbn. apply nth_error_Some. congruence. Qed.
Lemma got_incl env0 acc ms env1 : got env0 acc ms env1 -> incl (map (fun a => i_id (fst a)) acc) (seq 0 (length l)).
Proof. intros G k Hk. apply in_map_iff in Hk as (a & <- & Ha). apply in_seq. pose proof (got_bound _ _ _ _ _ G Ha). lia. Qed.
Lemma got_perm env0 acc ms env1 : got env0 acc ms env1 -> length ms = length l -> Permutation (map (fun a => i_id (fst a)) acc) (seq 0 (length l)).
Proof.
  intros G L. apply NoDup_Permutation_bis; [exact (go_nodup _ _ _ _ G)| |exact (got_incl _ _ _ _ G)].
  rewrite seq_length, map_length. rewrite (got_length _ _ _ _ G) in L. lia.
Qed.
Lemma got_short env0 acc ms env1 : got env0 acc ms env1 -> length ms < length l -> exists k, 0 <= k < 0 + length l /\ ~ In k (map i_id (infos ms)).
Proof.
  intros G L. destruct (Forall_Exists_dec (fun j => In j (map i_id (infos ms))) (fun j => in_dec Nat.eq_dec j _) (seq 0 (length l))) as [F|F].
  - exfalso. rewrite Forall_forall in F. pose proof (NoDup_incl_length (seq_NoDup (length l) 0) F) as X.
    rewrite seq_length, map_length, <- (Permutation_length (got_infos _ _ _ _ G)), map_length, <- (got_length _ _ _ _ G) in X. lia.
  - apply Exists_exists in F as (j & J & N). apply in_seq in J. exists j. split; [lia|auto].
Qed.
Lemma got_push env0 acc ms env1 a : got env0 acc ms env1 -> dag_one ci b l s e a -> existsb (same_id (i_id (fst a))) ms = false ->
  existsb (inside (rstart (i_span (fst a))) (rend (i_span (fst a)))) ms = false ->
  got env0 (acc ++ [a]) (ms_push ms (mkRes Good (Some (fst a)))) (bind_all env1 (snd a)).
Proof.
  intros G O N I. assert (Nk : ~ In (i_id (fst a)) (map (fun a => i_id (fst a)) acc)).
  { rewrite <- (got_id _ _ _ _ _ G), <- same_id_in. now rewrite N. }
  split.
  - rewrite map_app. cbn [map]. etransitivity; [symmetry; apply Permutation_cons_append|]. etransitivity; [|apply push_perm]. apply perm_skip. exact (go_perm _ _ _ _ G).
  - rewrite map_app. apply nodup_snoc; [exact (go_nodup _ _ _ _ G)|exact Nk].
  - apply Forall_app. split; [exact (go_one _ _ _ _ G)|now repeat constructor].
  - apply ord_pairs_snoc; [exact (go_apart _ _ _ _ G)|]. apply Forall_forall. intros c Hc.
    assert (Hin : In (mkRes Good (Some (fst c))) ms) by (eapply Permutation_in; [exact (go_perm _ _ _ _ G)|now apply (in_map (fun a => mkRes Good (Some (fst a))))]).
    assert (Ic : inside (rstart (i_span (fst a))) (rend (i_span (fst a))) (mkRes Good (Some (fst c))) = false).
    { apply not_true_is_false. intros X. assert (existsb (inside (rstart (i_span (fst a))) (rend (i_span (fst a)))) ms = true) by (apply existsb_exists; eauto). congruence. }
    unfold inside in Ic. cbn [m_info] in Ic. apply orb_false_iff in Ic as [I1 I2]. unfold range_contains in I1, I2. unfold apart.
    destruct (i_span (fst c)) as [r1 r2], (i_span (fst a)) as [t1 t2]; cbn [rstart rend] in *. apply andb_false_iff in I1, I2. rewrite !Nat.leb_gt, !Nat.ltb_ge in *. lia.
  - rewrite (go_env _ _ _ _ G). unfold defined, bind_all. rewrite flat_map_app, fold_left_app. cbn [flat_map]. now rewrite app_nil_r.
Qed.

Definition peaceful : Prop := no_clash ci b l s e /\ no_numbers l.
Lemma visit_run env0 hs : (forall h, In h hs -> exists x, regex_item T b ats m h = Val x /\ item_for ci l b s e ats h x) ->
  (forall h, In h hs -> rend (snd h) <= e) -> StronglySorted by_end hs ->
  forall acc ms env1, got env0 acc ms env1 -> length ms < length l -> (forall a h, In a acc -> In h hs -> rend (i_span (fst a)) <= rend (snd h)) ->
  (peaceful -> forall k c i j cs, nth_error l k = Some c -> s <= i -> matches_at ci b e (sp_pat c) i j cs ->
     In k (map (fun a => i_id (fst a)) acc) \/ In (k, mkRange i j) hs) ->
  exists ms' env' pos, visit_regex T b (length l) ats m hs ms env1 = Val (ms', env', pos) /\
    ((ms_ok ms' = false /\ pos = None /\ ~ (peaceful /\ forall c, In c l -> exists i j cs, s <= i /\ matches_at ci b e (sp_pat c) i j cs)) \/
     (exists acc' p, got env0 acc' ms' env' /\ length ms' = length l /\ pos = Some p /\ p <= e /\ forall a, In a acc' -> rend (i_span (fst a)) <= p)).
Proof.
  intros I B O. revert I B. induction O as [|h hs O IH Fh]; intros I B acc ms env1 G L A D.
  - exists (missing (length l) 0 ms ms), env1, None. cbn [visit_regex]. destruct (Nat.eqb_spec (length l) (length ms)); [lia|]. split; [reflexivity|]. left.
    destruct (got_short _ _ _ _ G L) as (k & Hk & Nk). splits; [apply missing_bad; right; eauto|reflexivity|].
    intros [P H]. destruct (nth_error l k) as [c|] eqn:Nc; [|apply nth_error_None in Nc; lia]. destruct (H c (nth_error_In _ _ Nc)) as (i & j & cs & Ls & Mt).
    destruct (D P k c i j cs Nc Ls Mt) as [H'|[]]. apply Nk. now apply (got_id _ _ _ _ _ G).
  - assert (I' : forall h, In h hs -> exists x, regex_item T b ats m h = Val x /\ item_for ci l b s e ats h x) by (intros; apply I; now right).
    assert (B' : forall h, In h hs -> rend (snd h) <= e) by (intros; apply B; now right). specialize (IH I' B').
    destruct (I h (or_introl eq_refl)) as (x & Ex & Hx). cbn [visit_regex]. rewrite Ex. cbn [bind].
    destruct Hx as [k c i j j' cs vs Nc Ls Lj Mt V|k c i j j' cs Nc Ls Mt V].
    + cbn [found_at m_info i_id i_span rstart rend]. assert (A' : forall a h, In a acc -> In h hs -> rend (i_span (fst a)) <= rend (snd h)) by (intros; apply A; [easy|now right]).
      assert (Skip : (peaceful -> In k (map (fun a => i_id (fst a)) acc)) -> peaceful -> forall k0 c i j cs, nth_error l k0 = Some c -> s <= i -> matches_at ci b e (sp_pat c) i j cs ->
        In k0 (map (fun a => i_id (fst a)) acc) \/ In (k0, mkRange i j) hs).
      { intros Hk P k0 c0 i0 j0 cs0 N0 L0 M0. destruct (D P k0 c0 i0 j0 cs0 N0 L0 M0) as [?|[E0|?]]; auto. injection E0 as <- _ _. left. auto. }
      destruct (existsb (same_id k) ms) eqn:Sk; [|destruct (existsb (inside i j') ms) eqn:In_]; cbn [orb].
      * apply (IH acc ms env1 G L A'). apply Skip. intros _. apply (got_id _ _ _ _ _ G). now apply same_id_in.
      * apply (IH acc ms env1 G L A'). apply Skip. intros P. exfalso. pose proof P as [[Ne Nc1] Nn].
        apply existsb_exists in In_ as (q & Hq & Iq). apply (Permutation_in q (Permutation_sym (go_perm _ _ _ _ G))) in Hq. apply in_map_iff in Hq as (a & <- & Ha).
        pose proof (go_one _ _ _ _ G) as One. rewrite Forall_forall in One. destruct (One a Ha) as (k2 & c2 & i2 & j2 & cs2 & N2 & L2 & M2 & V2 & E2).
        assert (Nk : ~ In k (map (fun a => i_id (fst a)) acc)) by (rewrite <- (got_id _ _ _ _ _ G), <- same_id_in; now rewrite Sk).
        assert (k <> k2) by (intros ->; apply Nk, in_map_iff; exists a; split; [now rewrite E2|easy]).
        pose proof (Ne c i j' cs (nth_error_In _ _ Nc) Ls Mt). pose proof (Ne c2 i2 j2 cs2 (nth_error_In _ _ N2) L2 M2).
        assert (Z : rend (i_span (fst a)) <= j) by (apply (A a (k, mkRange i j) Ha); now left). rewrite E2 in Z. cbn in Z.
        assert (Jj : j' = j).
        { destruct (D P k c i j' cs Nc Ls Mt) as [?|[E0|Hin]]; [easy|now injection E0|]. rewrite Forall_forall in Fh. apply Fh in Hin. unfold by_end in Hin. cbn in Hin. lia. }
        destruct (Nc1 k c i j' cs k2 c2 i2 j2 cs2) as [X|X]; auto; unfold inside in Iq; cbn [m_info] in Iq; rewrite E2 in Iq; cbn [i_span] in Iq; unfold range_contains in Iq; cbn [rstart rend] in Iq;
        apply orb_true_iff in Iq as [Iq|Iq]; apply andb_true_iff in Iq as [I1 I2]; apply Nat.leb_le in I1; apply Nat.ltb_lt in I2; lia.
      * set (a := (mkInfo (mkRange i j') k (sp_at c), vs)).
        assert (G' : got env0 (acc ++ [a]) (ms_push ms (mkRes Good (Some (fst a)))) (bind_all env1 (snd a))).
        { apply got_push; auto. exists k, c, i, j', cs. splits; auto. }
        cbn [fst snd a] in G'. change (found_at (mkRange i j') k (sp_at c)) with (mkRes Good (Some (fst a))). cbn [fst a].
        assert (Lm : length (ms_push ms (mkRes Good (Some (mkInfo (mkRange i j') k (sp_at c))))) = S (length ms)) by (rewrite <- (Permutation_length (push_perm _ _)); reflexivity).
        destruct (Nat.eqb_spec (length l) (length (ms_push ms (mkRes Good (Some (mkInfo (mkRange i j') k (sp_at c))))))) as [El|Nl].
        -- eexists _, _, _. split; [reflexivity|]. right. exists (acc ++ [a]), j. cbn [snd rend]. splits; auto; [exact (B _ (or_introl eq_refl))|].
           intros a0 Ha. apply in_app_iff in Ha as [Ha|[<-|[]]]; [apply (A a0 _ Ha (or_introl eq_refl))|]. exact Lj.
        -- apply (IH (acc ++ [a])); [exact G'|lia| |].
           ++ intros a0 h0 Ha Hh. apply in_app_iff in Ha as [Ha|[<-|[]]]; [now apply A'|]. rewrite Forall_forall in Fh. apply Fh in Hh. unfold by_end in Hh. cbn [snd rend] in Hh. cbn. lia.
           ++ intros P k0 c0 i0 j0 cs0 N0 L0 M0. rewrite map_app, in_app_iff. destruct (D P k0 c0 i0 j0 cs0 N0 L0 M0) as [?|[E0|?]]; auto. injection E0 as <- _ _. left. right. now left.
    + cbn [failed m_info]. eexists _, _, _. split; [reflexivity|]. left. splits; [apply push_failed_not_ok|reflexivity|]. intros [[_ Nn] _]. apply V. apply strings_have_values.
      intros d Hd. destruct Mt as [_ Mt]. rewrite (pieces_caps _ _ _ _ _ _ _ Mt) in Hd. apply (Nn c d); [now apply nth_error_In with k|exact Hd].
Qed.
End Dag.
