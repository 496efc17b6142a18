(** C103: where errors about groups of checks point. *)
From Coq Require Import String.
From Verif Require Import Base Cursor_Model Env_Model Num_Model Gram_Model Parse_Model Smart_Model PatSet_Model Where_Model Where_Spec Where_Proofs.
Notation length := List.length.
Open Scope string_scope. Open Scope list_scope. Open Scope nat_scope.

Scheme wgroup_ind2 := Induction for wgroup Sort Prop with wtree_ind2 := Induction for wtree Sort Prop.
Combined Scheme wgroup_wtree_ind from wgroup_ind2, wtree_ind2.

(** What can be said of a place in terms of the places of the patterns *)
Definition starts (l : list place) (p : place) : Prop :=
  exists a r, l = a :: r /\ p_source p = p_source a /\ p_from p = p_from a /\ p_upto a <= p_upto p <= p_upto (last r a).
Lemma starts_app s n l m p : in_order s n (l ++ m) -> starts l p -> starts (l ++ m) p.
Proof.
  intros O (a & r & -> & A & B & C). exists a, (r ++ m). repeat split; [assumption|assumption|lia|].
  transitivity (p_upto (last r a)); [lia|]. apply (io_last s (r ++ m) n a); [assumption|]. change (In (last r a) ((a :: r) ++ m)). apply in_or_app. left. apply last_in.
Qed.
Lemma starts_first (l m : list place) p : (exists r, l = p :: r) -> exists r, l ++ m = p :: r.
Proof. intros (r & ->). exists (r ++ m). reflexivity. Qed.

Lemma set_starts s n l p : in_order s n (map pl_place l) -> Forall inside l -> set_first l = Val p -> starts (map pl_place l) p.
Proof.
  intros O I H. destruct l as [|c l]; [discriminate H|]. destruct (set_first_begins s n c l O I p H) as (A & B & C). exists (pl_place c), (map pl_place l). now repeat split.
Qed.
Lemma set_head s n l p : in_order s n (map pl_place l) -> Forall inside l -> all_unlike l -> set_first l = Val p -> exists r, map pl_place l = p :: r.
Proof. intros O I U H. destruct l as [|c l]; [discriminate H|]. rewrite (set_first_exact s n c l O I p U H). now exists (map pl_place l). Qed.
Lemma set_bounds s n l p : in_order s n (map pl_place l) -> Forall inside l -> set_place l = Val p -> starts (map pl_place l) p.
Proof.
  intros O I H. destruct l as [|c l]; [discriminate H|]. destruct (set_place_bounds s n c l O I p H) as (A & B & C). exists (pl_place c), (map pl_place l). now repeat split.
Qed.
Lemma set_spans s n l p : in_order s n (map pl_place l) -> Forall inside l -> all_unlike l -> set_place l = Val p -> spans (map pl_place l) p.
Proof.
  intros O I U H. destruct l as [|c l]; [discriminate H|]. exists (pl_place c), (map pl_place l). split; [reflexivity|]. now apply (set_place_exact s n).
Qed.
Lemma rules_least s n a r : in_order s n (a :: r) -> first_start a r = a.
Proof. intros O. apply first_start_least. intros x I. apply (io_le s n a r); [assumption|now right]. Qed.
Lemma starts_one s n p r : in_order s n (p :: r) -> starts (p :: r) p.
Proof. intros O. exists p, r. split; [reflexivity|]. split; [reflexivity|]. split; [reflexivity|]. split; [lia|]. apply (io_last s r n); [assumption|now left]. Qed.

Lemma first_begins s : (forall g n p, in_order s n (stands g) -> Forall (Forall inside) (sets_of g) -> first_pattern_span g = Val p -> starts (stands g) p) /\
  forall t n p, in_order s n (tree_stands t) -> Forall (Forall inside) (tree_sets t) -> tree_first_span t = Val p -> starts (tree_stands t) p.
Proof.
  apply wgroup_wtree_ind; cbn [stands sets_of first_pattern_span tree_stands tree_sets tree_first_span].
  - intros l n p O I H. inversion I; subst. eapply set_starts; eassumption.
  - intros l n p O I H. inversion I; subst. eapply set_starts; eassumption.
  - intros l g IH n p O I H. inversion I; subst. eapply starts_app; [eassumption|]. apply io_app in O as [O _]. eapply set_starts; eassumption.
  - intros [|a r] n p O I H; [discriminate|]. cbn in H. injection H as <-. rewrite (rules_least s n) by assumption. now apply (starts_one s n).
  - intros r n p O I H. injection H as <-. now apply (starts_one s n).
  - intros t IH n p O I H. eapply IH; eassumption.
  - intros g IH n p O I H. eapply IH; eassumption.
  - intros root l IHl r IHr n p O I H. inversion I as [|? ? _ I']; subst. apply Forall_app in I' as [I' _]. eapply starts_app; [eassumption|]. apply io_app in O as [O _]. eapply IHl; eassumption.
  - intros root l IHl n p O I H. inversion I; subst. eapply starts_app; [eassumption|]. apply io_app in O as [O _]. eapply IHl; eassumption.
  - intros root r IHr n p O I H. inversion I; subst. eapply starts_app; [eassumption|]. apply io_app in O as [O _]. eapply set_starts; eassumption.
Qed.
Lemma first_exact s : (forall g n p, in_order s n (stands g) -> Forall (Forall inside) (sets_of g) -> Forall all_unlike (sets_of g) -> first_pattern_span g = Val p -> exists r, stands g = p :: r) /\
  forall t n p, in_order s n (tree_stands t) -> Forall (Forall inside) (tree_sets t) -> Forall all_unlike (tree_sets t) -> tree_first_span t = Val p -> exists r, tree_stands t = p :: r.
Proof.
  apply wgroup_wtree_ind; cbn [stands sets_of first_pattern_span tree_stands tree_sets tree_first_span].
  - intros l n p O I U H. inversion I; inversion U; subst. eapply set_head; eassumption.
  - intros l n p O I U H. inversion I; inversion U; subst. eapply set_head; eassumption.
  - intros l g IH n p O I U H. inversion I; inversion U; subst. apply starts_first. apply io_app in O as [O _]. eapply set_head; eassumption.
  - intros [|a r] n p O I U H; [discriminate|]. cbn in H. injection H as <-. rewrite (rules_least s n) by assumption. now exists r.
  - intros r n p O I U H. injection H as <-. now exists [].
  - intros t IH n p O I U H. eapply IH; eassumption.
  - intros g IH n p O I U H. eapply IH; eassumption.
  - intros root l IHl r IHr n p O I U H. inversion I as [|? ? _ I']; inversion U as [|? ? _ U']; subst. apply Forall_app in I' as [I' _]. apply Forall_app in U' as [U' _].
    apply starts_first. apply io_app in O as [O _]. eapply IHl; eassumption.
  - intros root l IHl n p O I U H. inversion I; inversion U; subst. apply starts_first. apply io_app in O as [O _]. eapply IHl; eassumption.
  - intros root r IHr n p O I U H. inversion I; inversion U; subst. apply starts_first. apply io_app in O as [O _]. eapply set_head; eassumption.
Qed.

(** The pattern that an error names as the first of a group: it begins where the first pattern begins and ends within the group; and it is
    the first pattern, if no two patterns of a set begin alike. *)
Theorem C103_first_partial src g p : laid_out src g -> first_pattern_span g = Val p ->
  exists a r, stands g = a :: r /\ p_source p = p_source a /\ p_from p = p_from a /\ p_upto a <= p_upto p <= p_upto (last r a).
Proof. intros [O I]. now apply (proj1 (first_begins src) g 0). Qed.
Print Assumptions C103_first_partial.
Theorem C103_unlike_partial src g p : laid_out src g -> Forall all_unlike (sets_of g) -> first_pattern_span g = Val p -> exists r, stands g = p :: r.
Proof. intros [O I]. now apply (proj1 (first_exact src) g 0). Qed.
Print Assumptions C103_unlike_partial.

(** The place of a whole group *)
Definition stops (l : list place) (p : place) : Prop := exists a r, l = a :: r /\ p_upto a <= p_upto p <= p_upto (last r a).
Definition begins (l : list place) (p : place) : Prop := exists a r, l = a :: r /\ p_source p = p_source a /\ p_from p = p_from a.
Definition ends (l : list place) (p : place) : Prop := exists a r, l = a :: r /\ p_upto p = p_upto (last r a).
Lemma last_app {A} (l : list A) a b r : last (l ++ a :: r) b = last r a.
Proof. revert b. induction l as [|x l IH]; intros b; cbn [app]; rewrite last_cons; [reflexivity|apply IH]. Qed.
Lemma stops_app s n l m p : in_order s n (l ++ m) -> stops m p -> stops (l ++ m) p.
Proof.
  intros O (a & r & -> & A & B). destruct l as [|b l]; [now exists a, r|]. exists b, (l ++ a :: r). split; [reflexivity|]. rewrite last_app. split; [|assumption].
  assert (C : p_upto b <= p_from a) by (apply (io_first s n b (l ++ a :: r)); [assumption|apply in_or_app; right; now left]).
  apply io_app in O as (_ & (_ & D & _) & _). lia.
Qed.
Lemma ends_app l m p : ends m p -> ends (l ++ m) p.
Proof. intros (a & r & -> & A). destruct l as [|b l]; [now exists a, r|]. exists b, (l ++ a :: r). split; [reflexivity|]. now rewrite last_app. Qed.
Lemma begins_app l m p : begins l p -> begins (l ++ m) p.
Proof. intros (a & r & -> & A & B). exists a, (r ++ m). now repeat split. Qed.
Lemma starts_begins l p : starts l p -> begins l p.
Proof. intros (a & r & -> & A & B & _). now exists a, r. Qed.
Lemma starts_stops l p : starts l p -> stops l p.
Proof. intros (a & r & -> & _ & _ & A). now exists a, r. Qed.
Lemma begins_stops l p : begins l p -> stops l p -> starts l p.
Proof. intros (a & r & -> & A & B) (a' & r' & E & C). injection E as <- <-. now exists a, r. Qed.
Lemma begins_ends l p : begins l p -> ends l p -> spans l p.
Proof. intros (a & r & -> & A & B) (a' & r' & E & C). injection E as <- <-. exists a, r. split; [reflexivity|]. destruct p; cbn in *. now subst. Qed.
Lemma spans_begins l p : spans l p -> begins l p.
Proof. intros (a & r & -> & ->). now exists a, r. Qed.
Lemma spans_ends l p : spans l p -> ends l p.
Proof. intros (a & r & -> & ->). now exists a, r. Qed.
Lemma joined a b p : join_checked a b = Val p -> p = mkPlace (p_source a) (p_from a) (p_upto b).
Proof. unfold join_checked, assert. destruct (p_from a <=? p_upto b); [|discriminate]. intros H. injection H as <-. reflexivity. Qed.
Lemma joined_stops l a b p : join_checked a b = Val p -> begins l a -> stops l b -> starts l p.
Proof. intros J B (x & r & -> & C). apply joined in J as ->. apply begins_stops; [destruct B as (x' & r' & E & D)|]; [exists x', r'; now split|exists x, r; now split]. Qed.
Lemma joined_ends l a b p : join_checked a b = Val p -> begins l a -> ends l b -> spans l p.
Proof. intros J B (x & r & -> & C). apply joined in J as ->. apply begins_ends; [destruct B as (x' & r' & E & D)|]; [exists x', r'; now split|exists x, r; now split]. Qed.

Lemma group_within s :
  (forall g n p, in_order s n (stands g) -> Forall (Forall inside) (sets_of g) -> group_place g = Val p -> starts (stands g) p) /\
  forall t n, in_order s n (tree_stands t) -> Forall (Forall inside) (tree_sets t) ->
    (forall p, tree_start t = Val p -> begins (tree_stands t) p) /\ (forall p, tree_stop t = Val p -> stops (tree_stands t) p).
Proof.
  apply wgroup_wtree_ind; cbn [stands sets_of group_place tree_stands tree_sets tree_start tree_stop].
  - intros l n p O I H. inversion I; subst. eapply set_bounds; eassumption.
  - intros l n p O I H. inversion I; subst. eapply set_bounds; eassumption.
  - intros l g IH n p O I H. inversion I; subst. apply bind_val in H as (a & A & H). apply bind_val in H as (b & B & H). pose proof O as O'. apply io_app in O' as (O1 & O2 & _).
    eapply joined_stops; [eassumption|apply begins_app, starts_begins; eapply set_bounds; eassumption|].
    eapply stops_app; [eassumption|]. apply starts_stops. eapply IH; eassumption.
  - intros [|a r] n p O I H; [discriminate|]. eapply joined_stops; [eassumption|now exists a, r|]. exists a, r. split; [reflexivity|]. split; [apply (io_last s r n); [assumption|now left]|lia].
  - intros r n p O I H. injection H as <-. now apply (starts_one s n).
  - intros t IH n p O I H. apply bind_val in H as (a & A & H). apply bind_val in H as (b & B & H). destruct (IH n O I) as [C D]. eapply joined_stops; [eassumption|now apply C|now apply D].
  - intros g IH n O I. split; intros p H; specialize (IH n p O I H); [now apply starts_begins|now apply starts_stops].
  - intros root l IHl r IHr n O I. inversion I as [|? ? I1 I2]; subst. apply Forall_app in I2 as [I2 I3]. pose proof O as O'. apply io_app in O' as (O1 & O2 & _).
    pose proof O2 as O3. apply io_app in O3 as (O3 & O4 & _). split; intros p H.
    + apply begins_app. now apply (IHl n O1 I2).
    + eapply stops_app; [eassumption|]. eapply stops_app; [eassumption|]. now apply (IHr n O4 I3).
  - intros root l IHl n O I. inversion I as [|? ? I1 I2]; subst. pose proof O as O'. apply io_app in O' as (O1 & O2 & _). split; intros p H.
    + apply begins_app. now apply (IHl n O1 I2).
    + eapply stops_app; [eassumption|]. apply starts_stops. eapply set_bounds; eassumption.
  - intros root r IHr n O I. inversion I as [|? ? I1 I2]; subst. pose proof O as O'. apply io_app in O' as (O1 & O2 & _). split; intros p H.
    + apply begins_app, starts_begins. eapply set_bounds; eassumption.
    + eapply stops_app; [eassumption|]. now apply (IHr n O2 I2).
Qed.
Lemma group_exact s :
  (forall g n p, in_order s n (stands g) -> Forall (Forall inside) (sets_of g) -> Forall all_unlike (sets_of g) -> group_place g = Val p -> spans (stands g) p) /\
  forall t n, in_order s n (tree_stands t) -> Forall (Forall inside) (tree_sets t) -> Forall all_unlike (tree_sets t) ->
    (forall p, tree_start t = Val p -> begins (tree_stands t) p) /\ (forall p, tree_stop t = Val p -> ends (tree_stands t) p).
Proof.
  apply wgroup_wtree_ind; cbn [stands sets_of group_place tree_stands tree_sets tree_start tree_stop].
  - intros l n p O I U H. inversion I; inversion U; subst. eapply set_spans; eassumption.
  - intros l n p O I U H. inversion I; inversion U; subst. eapply set_spans; eassumption.
  - intros l g IH n p O I U H. inversion I; inversion U; subst. apply bind_val in H as (a & A & H). apply bind_val in H as (b & B & H). apply io_app in O as (O1 & O2 & _).
    eapply joined_ends; [eassumption|apply begins_app, spans_begins; eapply set_spans; eassumption|]. apply ends_app, spans_ends. eapply IH; eassumption.
  - intros [|a r] n p O I U H; [discriminate|]. eapply joined_ends; [eassumption|now exists a, r|now exists a, r].
  - intros r n p O I U H. injection H as <-. exists r, []. split; [reflexivity|]. now destruct r.
  - intros t IH n p O I U H. apply bind_val in H as (a & A & H). apply bind_val in H as (b & B & H). destruct (IH n O I U) as [C D]. eapply joined_ends; [eassumption|now apply C|now apply D].
  - intros g IH n O I U. split; intros p H; specialize (IH n p O I U H); [now apply spans_begins|now apply spans_ends].
  - intros root l IHl r IHr n O I U. inversion I as [|? ? I1 I2]; inversion U as [|? ? U1 U2]; subst. apply Forall_app in I2 as [I2 I3]. apply Forall_app in U2 as [U2 U3]. apply io_app in O as (O1 & O2 & _).
    apply io_app in O2 as (O3 & O4 & _). split; intros p H.
    + apply begins_app. now apply (IHl n O1 I2).
    + apply ends_app, ends_app. now apply (IHr n O4 I3).
  - intros root l IHl n O I U. inversion I as [|? ? I1 I2]; inversion U as [|? ? U1 U2]; subst. apply io_app in O as (O1 & O2 & _). split; intros p H.
    + apply begins_app. now apply (IHl n O1 I2).
    + apply ends_app, spans_ends. eapply set_spans; eassumption.
  - intros root r IHr n O I U. inversion I as [|? ? I1 I2]; inversion U as [|? ? U1 U2]; subst. apply io_app in O as (O1 & O2 & _). split; intros p H.
    + apply begins_app, spans_begins. eapply set_spans; eassumption.
    + apply ends_app. now apply (IHr n O2 I2).
Qed.

(** The place of a group begins where the group begins and does not go beyond it; it is the whole group, if no two patterns of a set begin
    alike. *)
Theorem C103_group_partial src g p : laid_out src g -> group_place g = Val p ->
  exists a r, stands g = a :: r /\ p_source p = p_source a /\ p_from p = p_from a /\ p_upto a <= p_upto p <= p_upto (last r a).
Proof. intros [O I]. now apply (proj1 (group_within src) g 0). Qed.
Print Assumptions C103_group_partial.
Theorem C103_whole_partial src g p : laid_out src g -> Forall all_unlike (sets_of g) -> group_place g = Val p -> spans (stands g) p.
Proof. intros [O I]. now apply (proj1 (group_exact src) g 0). Qed.
Print Assumptions C103_whole_partial.

Lemma begin_le_end s n l a b : in_order s n l -> begins l a -> ends l b -> p_from a <= p_upto b.
Proof.
  intros O (x & r & -> & _ & A) (y & t & E & B). injection E as <- <-. rewrite A, B. pose proof (io_last s r n x x O (or_introl eq_refl)). destruct O as (_ & O & _). lia.
Qed.
Lemma join_answers s n l a b : in_order s n l -> begins l a -> ends l b -> exists p, join_checked a b = Val p.
Proof.
  intros O A B. pose proof (begin_le_end s n l a b O A B) as H. apply Nat.leb_le in H. unfold join_checked. rewrite H. eexists. reflexivity.
Qed.
Lemma group_answers s :
  (forall g n, in_order s n (stands g) -> Forall (Forall inside) (sets_of g) -> Forall all_unlike (sets_of g) -> Forall made (sets_of g) -> formed g ->
    (exists p, first_pattern_span g = Val p) /\ exists p, group_place g = Val p) /\
  forall t n, in_order s n (tree_stands t) -> Forall (Forall inside) (tree_sets t) -> Forall all_unlike (tree_sets t) -> Forall made (tree_sets t) -> formed_tree t ->
    (exists p, tree_first_span t = Val p) /\ (exists p, tree_start t = Val p) /\ exists p, tree_stop t = Val p.
Proof.
  apply wgroup_wtree_ind; cbn [stands sets_of group_place first_pattern_span tree_stands tree_sets tree_start tree_stop tree_first_span formed formed_tree].
  - intros l n O I U M _. inversion U; inversion M; subst. now apply sets_answer.
  - intros l n O I U M _. inversion U; inversion M; subst. now apply sets_answer.
  - intros l g IH n O I U M F. inversion I as [|? ? I1 I2]; inversion U as [|? ? U1 U2]; inversion M as [|? ? M1 M2]; subst. pose proof O as O'. apply io_app in O' as (O1 & O2 & _).
    destruct (sets_answer l M1 U1) as [A (a & B)]. split; [assumption|]. destruct (IH n O2 I2 U2 M2 F) as [_ (b & C)]. rewrite B, C. cbn [bind].
    apply (join_answers s n (map pl_place l ++ stands g)); [assumption|apply begins_app, spans_begins; eapply set_spans; eassumption|].
    apply ends_app, spans_ends. now apply (proj1 (group_exact s) g n).
  - intros [|a r] n O I U M F; [congruence|]. split; [eexists; reflexivity|]. apply (join_answers s n (a :: r)); [assumption|now exists a, r|now exists a, r].
  - intros r n O I U M F. split; eexists; reflexivity.
  - intros t IH n O I U M F. destruct (IH n O I U M F) as (A & (a & B) & (b & C)). split; [assumption|]. rewrite B, C. cbn [bind].
    destruct (proj2 (group_exact s) t n O I U) as [D E]. apply (join_answers s n (tree_stands t)); [assumption|now apply D|now apply E].
  - intros g IH n O I U M F. destruct (IH n O I U M F) as (A & B). now repeat split.
  - intros root l IHl r IHr n O I U M [F G]. inversion I as [|? ? I1 I2]; inversion U as [|? ? U1 U2]; inversion M as [|? ? M1 M2]; subst.
    apply Forall_app in I2 as [I2 I3]. apply Forall_app in U2 as [U2 U3]. apply Forall_app in M2 as [M2 M3]. apply io_app in O as (O1 & O2 & _). apply io_app in O2 as (O3 & O4 & _).
    destruct (IHl n O1 I2 U2 M2 F) as (A & B & _). destruct (IHr n O4 I3 U3 M3 G) as (_ & _ & C). now repeat split.
  - intros root l IHl n O I U M F. inversion I as [|? ? I1 I2]; inversion U as [|? ? U1 U2]; inversion M as [|? ? M1 M2]; subst. apply io_app in O as (O1 & O2 & _).
    destruct (IHl n O1 I2 U2 M2 F) as (A & B & _). destruct (sets_answer root M1 U1) as [_ C]. now repeat split.
  - intros root r IHr n O I U M F. inversion I as [|? ? I1 I2]; inversion U as [|? ? U1 U2]; inversion M as [|? ? M1 M2]; subst. apply io_app in O as (O1 & O2 & _).
    destruct (IHr n O2 I2 U2 M2 F) as (_ & _ & C). destruct (sets_answer root M1 U1) as [A B]. now repeat split.
Qed.
(** Groups made of patterns that begin differently have such places. *)
Theorem C103_answers_partial src g : laid_out src g -> Forall all_unlike (sets_of g) -> Forall made (sets_of g) -> formed g ->
  exists p r q, first_pattern_span g = Val p /\ stands g = p :: r /\ group_place g = Val q /\ spans (stands g) q.
Proof.
  intros L U M F. pose proof L as [O I]. destruct (proj1 (group_answers src) g 0 O I U M F) as [(p & P) (q & Q)].
  destruct (C103_unlike_partial src g p L U P) as (r & R). exists p, r, q. repeat split; try assumption. now apply (C103_whole_partial src).
Qed.
Print Assumptions C103_answers_partial.

(** Otherwise the first pattern is not what is named: if others begin like it, everything up to the last of them is. *)
Definition at_ (c : cpat) (src a m z : nat) : placed := read c (mkPlace src a z) m.
Definition use (x : string) : part := QMatch (MSubst (User (of_string x)) None).
Theorem C103_first_refuted : exists g p q, laid_out 1 g /\ first_pattern_span g = Val p /\ nth_error (stands g) 2 = Some q /\ p_upto p = p_upto q.
Proof.
  exists (WNever [at_ (PParts [QLit (of_string "a="); use "X"]) 1 11 13 18; at_ (PLit (of_string "b")) 1 30 31 31; at_ (PParts [QLit (of_string "a="); use "Y"]) 1 43 45 50]).
  eexists. eexists. split; [split; [cbn; lia|repeat constructor]; cbn; lia|]. split; [vm_compute; reflexivity|]. split; [vm_compute; reflexivity|reflexivity].
Qed.
Print Assumptions C103_first_refuted.
(** And the place of a group does not cover a text that is repeated. *)
Theorem C103_whole_refuted : exists g p, laid_out 1 g /\ group_place g = Val p /\ ~ spans (stands g) p.
Proof.
  exists (WUnordered [at_ (PLit (of_string "a")) 1 11 12 12; at_ (PLit (of_string "a")) 1 24 25 25]). eexists. split; [split; [cbn; lia|repeat constructor]; cbn; lia|].
  split; [vm_compute; reflexivity|]. intros (a & r & E & F). vm_compute in E. injection E as <- <-. discriminate F.
Qed.
Print Assumptions C103_whole_refuted.
(** With --implicit-check-not, whose pattern is a source of its own, the place of a set is said to be in that source, and to end where a
    pattern of the check file ends: behind the end of the text that was given on the command line. *)
Theorem C103_source_refuted : forall src other n c, src <> other -> pl_prefix c = FLit (of_string "b") -> pl_more c = false -> p_source (pl_place c) = src -> n < p_from (pl_place c) <= p_upto (pl_place c) ->
  exists p, group_place (WNever [at_ (PRegex (of_string "a")) other 0 n n; c]) = Val p /\ p_source p = other /\ n < p_upto p.
Proof.
  intros src other n [x more q m] N E F G L. cbn in *. subst. unfold set_place, at_, read. cbn. unfold prefix_place. cbn.
  assert (K : (n <=? p_upto q) = true) by (apply Nat.leb_le; lia). rewrite K. eexists. split; [reflexivity|]. cbn. lia.
Qed.
Print Assumptions C103_source_refuted.

(** Concrete cases. *)
Example where_case :
  let a := at_ (PParts [QLit (of_string "a="); use "X"]) 1 11 13 18 in let b := at_ (PLit (of_string "b")) 1 30 31 31 in let c := at_ (PRegex (of_string "c+")) 1 43 49 49 in
  let g := WTree (WAround [b; c] (WAll (WUnordered [a])) (WAll (WOrdered [mkPlace 1 60 65; mkPlace 1 80 90]))) in
  laid_out 1 g /\ Forall all_unlike (sets_of g) /\ Forall made (sets_of g) /\ formed g /\ first_pattern_span g = Val (mkPlace 1 11 18) /\ group_place g = Val (mkPlace 1 11 90) /\
  first_pattern_span (WNever [b; c]) = Val (mkPlace 1 30 31) /\ group_place (WBounded [a; b] (WRepeated (mkPlace 1 60 65))) = Val (mkPlace 1 11 65).
Proof.
  cbv zeta. split; [split; [cbn; lia|repeat constructor; cbn; lia]|]. split; [repeat constructor; cbn; discriminate|].
  split; [repeat constructor; try discriminate; unfold at_; do 3 eexists; (split; [reflexivity|vm_compute; discriminate])|]. split; [repeat split; discriminate|]. repeat split; vm_compute; reflexivity.
Qed.
