(** The sets of Regex_Model are sets as PatSet_Spec describes them. *)
From Coq Require Import String Sorted.
From Verif Require Import Base Text_Model Cursor_Model Check_Model Lit_Model Lit_Spec Env_Model Num_Model Gram_Model Parse_Model
  Regex_Model Regex_Spec Regex_Proofs Regex_Engine Smart_Model Smart_Spec Smart_Static PatSet_Model PatSet_Spec.
Open Scope list_scope.
Open Scope nat_scope.

(** the end of the range does not matter, as long as the match is not beyond it *)
Lemma lang_cut ci b e : (forall r i j, lang ci b e r i j -> forall e', j <= e' -> lang ci b e' r i j) /\
  (forall r n i j, lang_n ci b e r n i j -> forall e', j <= e' -> lang_n ci b e' r n i j).
Proof.
  apply lang_mutind; intros; try (now constructor; auto).
  - apply lg_set with c; auto.
  - apply lg_cat with k; auto. apply H. apply (proj1 (lang_bounds _ _ _)) in l0. lia.
  - apply lg_rep with n; auto.
  - apply ln_more with k; auto. apply H. apply (proj2 (lang_bounds _ _ _)) in l0. lia.
Qed.
Lemma build_all_nth ci l : forall xs k y, build_all ci l = Some xs -> nth_error xs k = Some y -> exists s, build ci s = Some y.
Proof.
  induction l as [|s l IH]; intros xs k y; cbn [build_all]; [intros [= <-]; now destruct k|].
  destruct (build ci s) as [x|] eqn:B; [|discriminate]. destruct (build_all ci l) as [xs'|]; [|discriminate]. intros [= <-].
  destruct k as [|k]; cbn; [intros [= <-]; eauto|]. now apply IH.
Qed.
Lemma lang_b_spec ci b e r i j : proper r -> i <= e -> lang_b ci b e r i j = true <-> lang ci b e r i j.
Proof.
  intros P L. unfold lang_b. rewrite existsb_exists. split.
  - intros ([k h] & Hk & E). apply Nat.eqb_eq in E. cbn in E. subst k. apply ends_run in Hk; [|exact P]. now apply (proj1 (run_lang _ _ _)) in Hk.
  - intros H. destruct (lang_ends _ _ _ _ _ _ H L no_caps) as (h & Hh). exists (j, h). split; [exact Hh|]. apply Nat.eqb_refl.
Qed.
Lemma combine_seq {A} (l : list A) k y : forall base, In (k, y) (combine (seq base (length l)) l) <-> base <= k /\ nth_error l (k - base) = Some y.
Proof.
  induction l as [|x l IH]; intros base; cbn [length seq combine]; [split; [easy|intros [_ H]; now destruct (k - base)]|]. cbn [In]. rewrite IH. split.
  - intros [[= <- <-]|[L H]]; [split; [lia|]; now rewrite Nat.sub_diag|]. split; [lia|]. replace (k - base) with (S (k - S base)) by lia. exact H.
  - intros [L H]. destruct (Nat.eq_dec k base) as [->|N]; [rewrite Nat.sub_diag in H; cbn in H; injection H as <-; now left|]. right. split; [lia|].
    replace (k - base) with (S (k - S base)) in H by lia. exact H.
Qed.
Lemma set_matches_in ci l xs b s e k i j : build_all ci l = Some xs -> s <= e ->
  In (k, mkRange i j) (set_matches xs b (mkRange s e)) <-> exists y, nth_error xs k = Some y /\ s <= i <= e /\ lang ci b e (x_re y) i j.
Proof.
  intros B L. unfold set_matches. cbn [rstart rend]. rewrite in_flat_map. split.
  - intros (j0 & Hj & H). apply in_seq in Hj. apply in_flat_map in H as ([k0 y] & Hk & H). apply combine_seq in Hk as [_ Hk]. rewrite Nat.sub_0_r in Hk. cbn [fst snd] in H.
    apply in_map_iff in H as (i0 & [= -> -> ->] & H). apply filter_In in H as [Hi H]. unfold down in Hi. rewrite <- in_rev in Hi. apply in_seq in Hi.
    destruct (build_all_nth _ _ _ _ _ B Hk) as (t & Bt). apply build_proper in Bt as [P C]. rewrite C in H. apply lang_b_spec in H; [|exact P|lia].
    exists y. repeat split; auto; lia.
  - intros (y & Hk & Li & H). destruct (build_all_nth _ _ _ _ _ B Hk) as (t & Bt). apply build_proper in Bt as [P C].
    pose proof (proj1 (lang_bounds _ _ _) _ _ _ H) as [Lij Le]. specialize (Le (proj2 Li)).
    exists j. split; [apply in_seq; lia|]. apply in_flat_map. exists (k, y). split; [apply combine_seq; split; [lia|now rewrite Nat.sub_0_r]|]. cbn [fst snd].
    apply in_map_iff. exists i. split; [reflexivity|]. apply filter_In. split; [unfold down; rewrite <- in_rev; apply in_seq; lia|].
    rewrite C. apply lang_b_spec; [exact P|lia|exact H].
Qed.
Lemma sorted_app {A} (R : A -> A -> Prop) l m : StronglySorted R l -> StronglySorted R m -> (forall x y, In x l -> In y m -> R x y) -> StronglySorted R (l ++ m).
Proof.
  intros H. induction H as [|x l H IH F]; intros M C; [exact M|]. cbn. constructor.
  - apply IH; [exact M|]. intros a c Ia Ic. apply C; [now right|easy].
  - apply Forall_app. split; [exact F|]. apply Forall_forall. intros y Hy. apply C; [now left|easy].
Qed.
Lemma set_matches_order xs b r : StronglySorted by_end (set_matches xs b r).
Proof.
  unfold set_matches. generalize (S (rend r) - rstart r) as n. intros n.
  set (f := fun j => flat_map _ _). assert (Fe : forall j h, In h (f j) -> rend (snd h) = j).
  { intros j h H. unfold f in H. apply in_flat_map in H as (p & _ & H). apply in_map_iff in H as (i & <- & _). reflexivity. }
  assert (G : forall l, (forall x y, In x l -> In y l -> rend (snd x) = rend (snd y)) -> StronglySorted by_end l).
  { induction l as [|x l IH]; intros H; [constructor|]. constructor; [apply IH; intros; apply H; now right|]. apply Forall_forall. intros y Hy. unfold by_end. rewrite (H x y); [lia|now left|now right]. }
  generalize (rstart r) as s. induction n as [|n IH]; intros s; [constructor|]. cbn [seq flat_map]. apply sorted_app.
  - apply G. intros x y Hx Hy. rewrite (Fe _ _ Hx), (Fe _ _ Hy). reflexivity.
  - apply IH.
  - intros x y Hx Hy. apply in_flat_map in Hy as (j & Hj & Hy). apply in_seq in Hj. unfold by_end. rewrite (Fe _ _ Hx), (Fe _ _ Hy). lia.
Qed.
Theorem ascii_set_ok : set_ok ascii_set.
Proof.
  split; unfold ascii_set; cbn [rset rs_build rs_names rs_matches rs_groups].
  - intros ci l xs x k y B R N. assert (x = xs) by congruence. subst x. now rewrite N.
  - intros ci l xs x b s e k i j B R L _. assert (x = xs) by congruence. subst x. now apply set_matches_in with l.
  - intros. apply set_matches_order.
  - intros ci l xs x b r k i j y B R N Le H. assert (x = xs) by congruence. subst x. rewrite N.
    destruct r as [s e]. cbn [rend] in Le.
    assert (Ls : s <= e). { destruct (Nat.le_gt_cases s e) as [|G]; [easy|exfalso]. unfold set_matches in H. cbn [rstart rend] in H. replace (S e - s) with 0 in H by lia. exact H. }
    apply (set_matches_in _ _ _ _ _ _ _ _ _ B Ls) in H as (y0 & N0 & Li & Hl). assert (y0 = y) by congruence. subst y0.
    destruct (build_all_nth _ _ _ _ _ B N) as (t & Bt). apply build_proper in Bt as [P C].
    pose proof (proj1 (lang_bounds _ _ _) _ _ _ Hl) as [Lij _].
    assert (Hj : lang ci b j (x_re y) i j) by (apply (proj1 (lang_cut _ _ _)) with (e' := j) in Hl; auto).
    rewrite search_anchored. destruct (Nat.ltb_spec j i); [lia|]. rewrite C.
    destruct (lang_ends _ _ _ _ _ _ Hj Lij no_caps) as (h & Hh).
    destruct (ends ci b j (x_re y) i no_caps) as [|[j' g] tl] eqn:En; [easy|]. exists j', g.
    assert (Rn : run ci b j (x_re y) i no_caps j' g) by (apply ends_run; [exact P|rewrite En; now left]).
    split; [|split; [exact Rn|reflexivity]]. apply (proj1 (run_lang _ _ _)) in Rn. now apply (proj1 (lang_bounds _ _ _)) in Rn as [_ Rn]; apply Rn.
Qed.
Print Assumptions ascii_set_ok.
