(** Patterns that do not depend on variables: the parts one after the other. *)
From Coq Require Import String.
From Verif Require Import Base Text_Model Cursor_Model Check_Model Lit_Model Lit_Spec Env_Model Num_Model Gram_Model Parse_Model
  Regex_Model Regex_Spec Regex_Proofs Regex_Engine Regex_Frame Smart_Model Smart_Spec Smart_Static.
Open Scope list_scope.
Open Scope nat_scope.
Ltac splits := repeat match goal with |- _ /\ _ => split end.

Lemma shift_shift d n r : re_shift d (re_shift n r) = re_shift (d + n) r.
Proof. induction r; cbn [re_shift]; try congruence. rewrite IHr. f_equal. lia. Qed.
Lemma run_cat_app ci b e l1 l2 : forall i g j h, run ci b e (cat (l1 ++ l2)) i g j h -> exists k h', run ci b e (cat l1) i g k h' /\ run ci b e (cat l2) k h' j h.
Proof.
  induction l1 as [|r l1 IH]; intros i g j h H; cbn [app cat fold_right] in H.
  - exists i, g. split; [constructor|exact H].
  - fold (cat (l1 ++ l2)) in H. inversion H as [| | |? ? ? ? k h0 ? ? H1 H2| | | |]; subst. apply IH in H2 as (k2 & h2 & A & C). exists k2, h2. split; [|easy]. now apply ru_cat with k h0.
Qed.
Lemma group_shift d r k : group_of (re_shift d r) k -> exists k', k = d + k' /\ group_of r k'.
Proof.
  induction r as [|s|l|x IHx y IHy|x IHx y IHy|lo hi g x IHx|i n x IHx]; cbn [re_shift group_of]; try easy.
  - intros [H|H]; [apply IHx in H as (k' & -> & H)|apply IHy in H as (k' & -> & H)]; exists k'; auto.
  - intros [H|H]; [apply IHx in H as (k' & -> & H)|apply IHy in H as (k' & -> & H)]; exists k'; auto.
  - intros [->|H]; [exists i; auto|]. apply IHx in H as (k' & -> & H). exists k'. auto.
Qed.
Lemma Forall2_app_ {A B} (P : A -> B -> Prop) l1 l2 m1 m2 : Forall2 P l1 m1 -> Forall2 P l2 m2 -> Forall2 P (l1 ++ l2) (m1 ++ m2).
Proof. induction 1; cbn; auto. Qed.

Lemma Forall2_imp {A B} (P Q : A -> B -> Prop) l m : (forall a b, P a b -> Q a b) -> Forall2 P l m -> Forall2 Q l m.
Proof. induction 2; auto. Qed.

Record parts_ok (ci : bool) (l : list part) (ts : list rtok) (n : nat) (rs : list re) (idx : list nat) : Prop := {
  pso_flat : flat (flat_map part_text l) ts n rs;
  pso_names : some_names (open_names ts) = flat_map part_names l;
  pso_own : Forall2 (fun c k => nth_error (None :: open_names ts) k = Some (Some (v_text (k_name c)))) (flat_map part_caps l) idx;
  pso_idx : Forall (fun k => 1 <= k <= n) idx;
  pso_run b e d i g j h : e <= length b -> i <= e -> run ci b e (cat (map (re_shift d) rs)) i g j h ->
    exists cs, pieces ci b e l i j cs /\ map fst cs = flat_map part_caps l /\
      Forall2 (fun c k => exists r, h (d + k) = Some r /\ snd c = text_of b r) cs idx;
  pso_lang b e i j cs : e <= length b -> i <= e -> pieces ci b e l i j cs -> lang ci b e (cat rs) i j }.
Lemma parts_nil ci : parts_ok ci [] [] 0 [] [].
Proof.
  split.
  - apply flat_nil.
  - reflexivity.
  - constructor.
  - constructor.
  - intros b e d i g j h B L R. cbn in R. inversion R; subst. exists []. splits; constructor.
  - intros b e i j cs B L H. inversion H; subst. constructor.
Qed.
Lemma part_index_range q k : In k (part_index q) -> k = 1.
Proof. unfold part_index. rewrite in_map_iff. now intros (c & <- & _). Qed.
Lemma parts_cons ci q ts n rs l us m ss idx : part_ok ci q ts n rs -> parts_ok ci l us m ss idx ->
  parts_ok ci (q :: l) (ts ++ us) (n + m) (rs ++ map (re_shift n) ss) (part_index q ++ map (Nat.add n) idx).
Proof.
  intros [Fq Nq Oq Rq Lq] [F N O X R L]. pose proof (flat_facts _ _ _ _ Fq) as [En Wq]. pose proof (flat_facts _ _ _ _ F) as [Em Wl].
  assert (On : open_names (ts ++ us) = open_names ts ++ open_names us) by (unfold open_names; apply flat_map_app).
  assert (Ib : Forall (fun k => 1 <= k <= n) (part_index q)).
  { apply Forall_forall. intros k Hk. pose proof (part_index_range _ _ Hk) as ->. split; [lia|]. unfold part_index in *. destruct (part_caps q) as [|c cs]; [easy|]. cbn [map] in Oq. inversion Oq as [|? ? ? ? E]; subst.
    cbn in E. destruct (open_names ts); [discriminate|]. cbn. lia. }
  split.
  - cbn [flat_map]. now apply flat_app.
  - rewrite On. unfold some_names. rewrite flat_map_app. fold some_names. cbn [flat_map]. unfold some_names in Nq, N. now rewrite Nq, N.
  - cbn [flat_map]. rewrite On. apply Forall2_app_.
    + eapply Forall2_imp; [|exact Oq]. intros c k E. rewrite app_comm_cons, nth_error_app1; [exact E|]. apply nth_error_Some. congruence.
    + clear -O En X. induction O as [|c k cs ks E O IH]; [constructor|]. cbn [map]. inversion X; subst. constructor; [|auto].
      rewrite app_comm_cons, nth_error_app2 by (cbn [length]; lia). cbn [length]. destruct k as [|k]; [lia|].
      replace (length (open_names ts) + S k - S (length (open_names ts))) with k by lia. exact E.
  - apply Forall_app. split.
    + eapply Forall_impl; [|exact Ib]. cbn. lia.
    + apply Forall_map. eapply Forall_impl; [|exact X]. cbn. lia.
  - intros b e d i g j h B Li H. rewrite map_app in H. apply run_cat_app in H as (k & h' & H1 & H2).
    assert (Lk : k <= e). { apply (proj1 (run_lang _ _ _)) in H1. apply (proj1 (lang_bounds _ _ _)) in H1 as [_ H1]. auto. }
    rewrite map_map in H2. rewrite (map_ext _ (re_shift (d + n))) in H2 by (intros; apply shift_shift).
    destruct (Rq b e d i g k h' B Li H1) as [P1 C1]. destruct (R b e (d + n) k h' j h B Lk H2) as (cs & P2 & E2 & C2).
    exists (map (fun c => (c, between b i k)) (part_caps q) ++ cs). splits.
    + now apply pcs_cons with k.
    + cbn [flat_map]. rewrite map_app, map_map, E2. cbn [fst]. now rewrite map_id.
    + apply Forall2_app_.
      * unfold part_index in *. clear -C1 H2 Ib Wl.
        induction (part_caps q) as [|c l0 IH]; cbn [map] in *; [constructor|]. inversion C1; subst. inversion Ib; subst. constructor; [|now apply IH].
        exists (mkRange i k). split; [|reflexivity]. rewrite <- H1. apply (proj1 (run_groups _ _ _) _ _ _ _ _ H2). intros G. rewrite <- cat_shift in G. apply group_shift in G as (k' & E & G). apply Wl in G. lia.
      * clear -C2. induction C2 as [|c k cs ks (r & H & E) C2 IH]; cbn [map]; [constructor|]. constructor; [|easy]. exists r. split; [|easy]. now replace (d + (n + k)) with (d + n + k) by lia.
  - intros b e i j cs B Li H. inversion H as [|? ? ? k ? cs1 ds H1 H2]; subst. apply lang_cat_app. exists k. pose proof (Lq b e i k cs1 B Li H1) as Lg. split; [exact Lg|].
    rewrite <- cat_shift. apply shift_lang. eapply L; eauto. apply (proj1 (lang_bounds _ _ _)) in Lg as [_ Lg]. auto.
Qed.
Lemma statics_ok ci l : Forall (static ci) l -> exists ts n rs idx, parts_ok ci l ts n rs idx.
Proof.
  induction 1 as [|q l Hq Hl (us & m & ss & idx & IH)]; [eexists _, _, _, _; apply parts_nil|].
  destruct (static_ok _ _ Hq) as (ts & n & rs & P). eexists _, _, _, _. eapply parts_cons; eauto.
Qed.

(** * Compaction *)
Lemma escape_app s t : escape (s ++ t) = escape s ++ escape t.
Proof. unfold escape. apply flat_map_app. Qed.
Lemma compact_static ci l : Forall (static ci) l -> forall p, exists p', fold_left compact_one l ([], p) = ([], p') /\
  as_regex p' = as_regex p ++ flat_map part_text l /\ p_caps p' = p_caps p ++ flat_map part_caps l /\ p_lit p' = (p_lit p && forallb is_literal l)%bool.
Proof.
  induction 1 as [|q l Hq Hl IH]; intros p.
  - exists p. cbn [fold_left flat_map forallb]. rewrite !app_nil_r, andb_true_r. auto.
  - cbn [fold_left flat_map forallb].
    assert (C : exists p1, compact_one ([], p) q = ([], p1) /\ as_regex p1 = as_regex p ++ part_text q /\ p_caps p1 = p_caps p ++ part_caps q /\ p_lit p1 = (p_lit p && is_literal q)%bool).
    { destruct Hq; cbn [compact_one part_text part_caps is_literal].
      - eexists. split; [reflexivity|]. unfold as_regex. destruct (p_lit p) eqn:E; cbn [p_lit p_text p_caps]; rewrite ?escape_app, ?app_nil_r; auto.
      - eexists. split; [reflexivity|]. unfold add_regex, as_regex. cbn. now rewrite app_nil_r, andb_false_r.
      - eexists. split; [reflexivity|]. unfold add_regex, as_regex. cbn. now rewrite andb_false_r.
      - eexists. split; [reflexivity|]. unfold add_regex, as_regex. cbn. now rewrite app_nil_r, andb_false_r.
      - eexists. split; [reflexivity|]. unfold add_regex, as_regex. cbn. now rewrite andb_false_r. }
    destruct C as (p1 & -> & T1 & C1 & L1). destruct (IH p1) as (p' & E & T & Cs & Lt). exists p'. split; [exact E|].
    rewrite T, Cs, Lt, T1, C1, L1, !app_assoc, andb_assoc. auto.
Qed.
Lemma compact_regex ci l : Forall (static ci) l -> forallb is_literal l = false ->
  compact (PParts l) = KpRegex (flat_map part_text l) (flat_map part_caps l).
Proof.
  intros H N. destruct l as [|q l]; [discriminate|]. destruct (compact_static ci _ H nothing_pending) as (p' & E & T & C & L).
  unfold compact. rewrite E. cbn [p_lit nothing_pending p_caps andb as_regex p_text escape flat_map app] in T, C, L. rewrite L, N.
  unfold as_regex in T. rewrite L, N in T. cbn in T, C. now rewrite T, C.
Qed.
(** ... and of literals *)
Lemma compact_literal l : l <> [] -> forallb is_literal l = true -> exists s, compact (PParts l) = KpLit s /\ escape s = flat_map part_text l.
Proof.
  intros N H. assert (F : Forall (static false) l). { apply Forall_forall. intros q Hq. rewrite forallb_forall in H. specialize (H q Hq). destruct q; try discriminate. constructor. }
  destruct (compact_static _ _ F nothing_pending) as (p' & E & T & C & L). destruct l as [|q l]; [easy|].
  unfold compact. rewrite E. rewrite L, H. cbn [nothing_pending p_lit andb]. exists (p_text p'). split; [reflexivity|].
  unfold as_regex in T. rewrite L, H in T. exact T.
Qed.

(** * The names of the groups *)
Lemma distinct_nodup l : distinct l = true <-> NoDup l.
Proof.
  induction l as [|x l IH]; cbn [distinct]; [split; [constructor|easy]|]. rewrite andb_true_iff, IH, negb_true_iff. split.
  - intros [H N]. constructor; [|easy]. intros I. assert (existsb (str_eqb x) l = true) by (apply existsb_exists; exists x; split; [easy|apply str_eqb_refl]). congruence.
  - intros H. inversion H as [|? ? I N]; subst. split; [|easy]. apply not_true_is_false. intros E. apply existsb_exists in E as (y & Hy & E). apply str_eqb_eq in E as ->. easy.
Qed.
Lemma index_nth names : forall k name base, NoDup (some_names names) -> nth_error names k = Some (Some name) -> index_of name names base = Some (base + k).
Proof.
  induction names as [|x names IH]; intros [|k] name base D N; try discriminate.
  - injection N as ->. cbn. rewrite str_eqb_refl. f_equal. lia.
  - cbn [nth_error] in N. cbn [index_of]. destruct x as [nm|].
    + cbn [some_names flat_map app] in D. inversion D as [|? ? I D2]; subst. destruct (str_eqb name nm) eqn:E.
      * exfalso. apply str_eqb_eq in E as ->. apply I. unfold some_names. apply in_flat_map. exists (Some nm). split; [eapply nth_error_In; eauto|now left].
      * rewrite (IH k); auto. f_equal. lia.
    + rewrite (IH k); auto. f_equal. lia.
Qed.
Lemma groups_index names cs ks : NoDup (some_names names) -> Forall2 (fun c k => nth_error names k = Some (Some (v_text (k_name c)))) cs ks ->
  groups_of names cs = Val (combine ks cs).
Proof.
  intros D. induction 1 as [|c k cs ks E F IH]; [reflexivity|]. cbn [groups_of combine]. rewrite (index_nth _ _ _ _ D E). cbn [unwrap bind Nat.add]. now rewrite IH.
Qed.

(** * Conversion of the captured texts *)
Lemma convert_spec s ty v : convert s ty = Some v <-> value_for ty s v.
Proof.
  unfold convert. split.
  - destruct ty as [|f]; [intros [= <-]; constructor|]. fold (format_of f). destruct (parse_with_format s (format_of f)) as [z|] eqn:E; [|discriminate]. intros [= <-]. now constructor.
  - destruct 1 as [|f t z E]; [reflexivity|]. unfold format_of in *. now rewrite E.
Qed.
Lemma convert_groups_spec b rs cs : Forall2 (fun rc c => snd rc = fst c /\ text_of b (fst rc) = snd c) rs cs ->
  (forall vs, convert_groups b rs = Some vs -> values_for cs vs) /\ (convert_groups b rs = None -> ~ exists vs, values_for cs vs).
Proof.
  induction 1 as [|[r k] [c t] rs cs [E T] F [IH1 IH2]]; cbn [convert_groups fst snd] in *.
  - split; [intros vs [= <-]; constructor|discriminate].
  - subst. destruct (convert (text_of b r) (k_ty c)) as [v|] eqn:C.
    + apply convert_spec in C. destruct (convert_groups b rs) as [vs|].
      * split; [|discriminate]. intros vs' [= <-]. constructor; [split; auto|]. apply IH1. reflexivity.
      * split; [discriminate|]. intros _ (vs' & V). inversion V; subst. eapply IH2; eauto.
    + split; [discriminate|]. intros _ (vs' & V). inversion V as [|? ? ? ? [_ V1] V2]; subst. apply convert_spec in V1. cbn in V1. congruence.
Qed.
