(** C90: lit's report. *)
From Coq Require Import String Permutation Sorted.
From Verif Require Import Base Cursor_Model Num_Model Num_Proofs Run_Model Run_Spec Run_Props Report_Model Report_Spec.
Notation length := List.length.
Open Scope string_scope. Open Scope list_scope. Open Scope nat_scope.
Ltac splits := repeat match goal with |- _ /\ _ => split end.

(** * Numbers *)
Lemma decimal_digs f : forall n, (Z.of_nat n < 2 ^ Z.of_nat (S f))%Z -> decimal n (map (digit_char false) (digs (S f) 10 (Z.of_nat n))).
Proof.
  assert (One : forall d, d < 10 -> digit_char false (Z.of_nat d) = N.of_nat (48 + d)) by (intros d H; unfold digit_char; destruct (Z.ltb_spec (Z.of_nat d) 10); [|lia]; rewrite Nat2N.inj_add; lia).
  induction f as [|f IH]; intros n H.
  - change (2 ^ Z.of_nat 1)%Z with 2%Z in H. cbn [digs]. destruct (Z.ltb_spec (Z.of_nat n) 10); [|lia]. cbn [map]. rewrite One by lia. apply d_one. lia.
  - change (digs (S (S f)) 10 (Z.of_nat n)) with (if (Z.of_nat n <? 10)%Z then [Z.of_nat n] else digs (S f) 10 (Z.of_nat n / 10) ++ [(Z.of_nat n mod 10)%Z]).
    destruct (Z.ltb_spec (Z.of_nat n) 10); [cbn [map]; rewrite One by lia; apply d_one; lia|].
    rewrite map_app. cbn [map]. replace (Z.of_nat n / 10)%Z with (Z.of_nat (n / 10)) by apply (Nat2Z.inj_div n 10). replace (Z.of_nat n mod 10)%Z with (Z.of_nat (n mod 10)) by apply (Nat2Z.inj_mod n 10). pose proof (Nat.mod_upper_bound n 10 ltac:(lia)) as U. rewrite One by exact U.
    rewrite (Nat.div_mod_eq n 10) at 1. apply d_more; [|exact U|].
    + apply Nat.div_str_pos. lia.
    + apply IH. rewrite Nat2Z.inj_div. apply Z.div_lt_upper_bound; [lia|]. rewrite Nat2Z.inj_succ, Z.pow_succ_r in H by lia. lia.
Qed.
Lemma decimal_text n : decimal n (number_text n).
Proof.
  unfold number_text, show_digits, digits. apply decimal_digs. rewrite Nat2Z.inj_succ, Z2Nat.id by apply Z.log2_nonneg. destruct (Z.eq_dec (Z.of_nat n) 0) as [->|]; [reflexivity|]. apply Z.log2_spec. lia.
Qed.

(** * Groups *)
Lemma label_title s : label s = title s.
Proof. now destruct s. Qed.
Lemma failure_iff s : is_failure s = true <-> failing s.
Proof. destruct s; cbn; intuition discriminate. Qed.
Lemma max_ge x l : In x l -> x <= max_of l.
Proof. unfold max_of. induction l as [|y l IH]; cbn [fold_right]; intros []; [lia|]. specialize (IH H). lia. Qed.
Lemma max_in l : l <> [] -> In (max_of l) l.
Proof.
  unfold max_of. induction l as [|x l IH]; intros H; [contradiction|]. cbn [fold_right]. destruct l as [|y l]; [left; cbn; lia|]. destruct (Nat.max_spec x (fold_right Nat.max 0 (y :: l))) as [[_ ->]|[_ ->]]; [right; now apply IH|now left].
Qed.
Section Groups.
Context {test : Type} (name : test -> str) (percent : nat -> nat -> str).
Notation results := (@results test).
Definition entries (r : results) : list (str * status) := map (fun x => (name (fst x), snd x)) (reported r).
(** Groups in order, none empty, each test under its own status *)
Definition tidy (r : results) : Prop := StronglySorted (fun a b => rank a < rank b) (map fst r) /\ forall k l, In (k, l) r -> l <> [] /\ Forall (fun x => snd x = k) l.
Lemma named_app s a b : named s (a ++ b) = named s a ++ named s b.
Proof using. unfold named. now rewrite filter_app, map_app. Qed.
Lemma named_same s l : Forall (fun x => snd x = s) l -> named s (map (fun x => (name (fst x), snd x)) l) = map (fun x => name (fst x)) l.
Proof using.
  unfold named. induction 1 as [|x l Hx F IH]; [reflexivity|]. cbn [map filter snd]. destruct (status_dec (snd x) s) as [_|D]; [|contradiction]. cbn [map fst]. now rewrite IH.
Qed.
Lemma named_other s k l : k <> s -> Forall (fun x => snd x = k) l -> named s (map (fun x => (name (fst x), snd x)) l) = [].
Proof using.
  intros D. unfold named. induction 1 as [|x l Hx F IH]; [reflexivity|]. cbn [map filter snd]. destruct (status_dec (snd x) s) as [E|_]; [congruence|]. exact IH.
Qed.
Lemma entries_cons k l r : entries ((k, l) :: r) = map (fun x => (name (fst x), snd x)) l ++ entries r.
Proof using. unfold entries, reported. cbn [map concat snd]. apply map_app. Qed.
Lemma named_absent s r : (forall k l, In (k, l) r -> Forall (fun x => snd x = k) l) -> ~ In s (map fst r) -> named s (entries r) = [].
Proof using.
  induction r as [|(k, l) r IH]; intros H N; [reflexivity|]. rewrite entries_cons, named_app. rewrite IH; [|intros; apply H; now right|intros I; apply N; now right]. rewrite named_other with (k := k); [reflexivity|intros ->; apply N; now left|apply H; now left].
Qed.
Lemma named_group r : (forall k l, In (k, l) r -> Forall (fun x => snd x = k) l) -> NoDup (map fst r) -> forall k l, In (k, l) r -> named k (entries r) = map (fun x => name (fst x)) l.
Proof using.
  induction r as [|(k0, l0) r IH]; intros H Nd k l I; [destruct I|]. inversion Nd as [|? ? Nk Nr]; subst. cbn [fst] in *. rewrite entries_cons, named_app. destruct I as [E|I].
  - injection E as -> ->. rewrite named_same by (apply H; now left). rewrite named_absent; [apply app_nil_r|intros; apply H; now right|exact Nk].
  - rewrite named_other with (k := k0); [apply IH; [intros; apply H; now right|exact Nr|exact I]|intros ->; apply Nk, (in_map fst r (k, l) I)|apply H; now left].
Qed.
Lemma sorted_nodup_keys (l : list status) : StronglySorted (fun a b => rank a < rank b) l -> NoDup l.
Proof using. induction 1 as [|a l Sl IH F]; constructor; [|exact IH]. intros I. rewrite Forall_forall in F. apply F in I. lia. Qed.
Lemma order_sorted : StronglySorted (fun a b => rank a < rank b) order.
Proof using. repeat constructor. Qed.
(** Going through the statuses in order and through the groups *)
Lemma walk (o : list status) : forall r : results, StronglySorted (fun a b => rank a < rank b) o -> StronglySorted (fun a b => rank a < rank b) (map fst r) -> incl (map fst r) o ->
  match o with
  | [] => r = []
  | s :: o' => (exists l r', r = (s, l) :: r' /\ incl (map fst r') o' /\ ~ In s (map fst r')) \/ (~ In s (map fst r) /\ incl (map fst r) o')
  end.
Proof using.
  intros r So Sr I. destruct o as [|s o]; [destruct r as [|x r]; [reflexivity|elim (I (fst x)); now left]|].
  inversion So as [|? ? So' Fo]; subst. rewrite Forall_forall in Fo. destruct (in_dec status_dec s (map fst r)) as [Is|Ns].
  - left. destruct r as [|(k, l) r]; [destruct Is|]. cbn [map fst] in *. inversion Sr as [|? ? Sr' Fr]; subst. rewrite Forall_forall in Fr.
    assert (k = s). { destruct Is as [E|Is]; [exact E|]. destruct (I k (or_introl eq_refl)) as [->|Ik]; [reflexivity|]. apply Fo in Ik. apply Fr in Is. lia. } subst k.
    exists l, r. splits; [reflexivity| |intros J; apply Fr in J; lia]. intros x J. destruct (I x (or_intror J)) as [<-|]; [apply Fr in J; lia|assumption].
  - right. split; [exact Ns|]. intros x J. destruct (I x J) as [<-|]; [contradiction|assumption].
Qed.
Context (r0 : results) (T : tidy r0).
Lemma group_printed s l : In (s, l) r0 -> group s (named s (entries r0)) (print_group name (s, l)).
Proof using T.
  intros I. destruct T as [Sr H]. rewrite named_group with (l := l); [|intros k m J; now apply (H k m)|now apply sorted_nodup_keys|exact I].
  unfold print_group. cbn [fst snd]. rewrite label_title. change (repeat 42%N 20 ++ of_string " " ++ title s ++ of_string " Tests (" ++ number_text (length l) ++ of_string "):") with (of_string "******************** " ++ title s ++ of_string " Tests (" ++ number_text (length l) ++ of_string "):").
  replace (flat_map (fun r => println (of_string "  " ++ name (fst r))) l) with (concat (map (fun n => line (of_string "  " ++ n)) (map (fun x => name (fst x)) l))) by (rewrite map_map, flat_map_concat_map; reflexivity).
  apply g_text. rewrite map_length. apply decimal_text.
Qed.
Lemma present_group s l : In (s, l) r0 -> present (entries r0) s.
Proof using T.
  intros I. destruct T as [Sr H]. unfold present. rewrite named_group with (l := l); [|intros k m J; now apply (H k m)|now apply sorted_nodup_keys|exact I]. destruct (H s l I) as [Ne _]. destruct l; [contradiction|discriminate].
Qed.
Lemma absent_group s : ~ In s (map fst r0) -> ~ present (entries r0) s.
Proof using T. intros N P. apply P. destruct T as [_ H]. apply named_absent; [intros k m J; now apply (H k m)|exact N]. Qed.
Definition shown (quiet : bool) (s : status) : Prop := quiet = true -> failing s.
Lemma groups_printed quiet (o : list status) : forall r : results, StronglySorted (fun a b => rank a < rank b) o -> StronglySorted (fun a b => rank a < rank b) (map fst r) -> incl (map fst r) o -> incl r r0 ->
  (forall s, In s o -> In s (map fst r0) -> In s (map fst r)) ->
  groups (entries r0) (shown quiet) o (flat_map (fun x => if negb (is_failure (fst x)) && negb (negb quiet) then [] else print_group name x) r).
Proof using T.
  induction o as [|s o IH]; intros r So Sr I Ir K; pose proof (walk _ r So Sr I) as W; cbn beta iota in W.
  - subst r. constructor.
  - inversion So as [|? ? So' Fo]; subst. rewrite Forall_forall in Fo. destruct W as [(l & r' & -> & I' & Ns)|[Ns I']].
    + inversion Sr; subst. assert (Isl : In (s, l) r0) by (apply Ir; now left).
      assert (G : groups (entries r0) (shown quiet) o (flat_map (fun x => if negb (is_failure (fst x)) && negb (negb quiet) then [] else print_group name x) r')).
      { apply IH; auto; [intros x J; apply Ir; now right|]. intros x Jo J. destruct (K x (or_intror Jo) J) as [E|]; [cbn in E; subst x; apply Fo in Jo; lia|assumption]. }
      cbn [flat_map fst]. destruct (negb (is_failure s) && negb (negb quiet)) eqn:E.
      * apply gs_skip; [|exact G]. intros [_ Sh]. apply andb_true_iff in E as [E1 E2]. destruct quiet; [|discriminate]. specialize (Sh eq_refl). apply failure_iff in Sh. rewrite Sh in E1. discriminate.
      * apply gs_take; [now apply present_group with l| |now apply group_printed|exact G]. intros ->. apply failure_iff. destruct (is_failure s); [reflexivity|discriminate].
    + apply gs_skip; [intros [P _]; revert P; apply absent_group; intros J; apply Ns, K; auto; now left|]. apply IH; auto. intros x Jo J. apply K; auto. now right.
Qed.
Lemma total_entries : list_sum (map (fun x => length (snd x)) r0) = length (entries r0).
Proof using.
  unfold entries, reported. rewrite map_length. clear T. induction r0 as [|x r IH]; [reflexivity|]. cbn [map concat]. rewrite app_length, <- IH. reflexivity.
Qed.
Lemma rows_printed (o : list status) w v : forall r : results, StronglySorted (fun a b => rank a < rank b) o -> StronglySorted (fun a b => rank a < rank b) (map fst r) -> incl (map fst r) o -> incl r r0 ->
  (forall s, In s o -> In s (map fst r0) -> In s (map fst r)) -> (forall s l, In (s, l) r -> length (label s) <= w /\ length (number_text (length l)) <= v) ->
  rows percent (entries r0) w v o
    (flat_map (fun x => println (of_string "  " ++ pad_left (label (fst (fst x))) w ++ of_string ": " ++ pad_right (snd x) v ++ of_string " (" ++ percent (snd (fst x)) (length (entries r0)) ++ of_string "%)"))
       (map (fun x => (fst x, length (snd x), number_text (length (snd x)))) r)).
Proof using T.
  induction o as [|s o IH]; intros r So Sr I Ir K B; pose proof (walk _ r So Sr I) as W; cbn beta iota in W.
  - subst r. constructor.
  - inversion So as [|? ? So' Fo]; subst. rewrite Forall_forall in Fo. destruct W as [(l & r' & -> & I' & Ns)|[Ns I']].
    + inversion Sr; subst. assert (Isl : In (s, l) r0) by (apply Ir; now left). destruct (B s l (or_introl eq_refl)) as [B1 B2]. destruct T as [S0 H].
      assert (En : length (named s (entries r0)) = length l) by (rewrite named_group with (l := l); [apply map_length|intros k m J; now apply (H k m)|now apply sorted_nodup_keys|exact Isl]).
      cbn [map flat_map fst snd]. unfold println at 1, pad_left at 1, pad_right at 1. rewrite label_title in *. rewrite <- En.
      replace ((of_string "  " ++ (title s ++ spaces (w - length (title s))) ++ of_string ": " ++ (spaces (v - length (number_text (length (named s (entries r0))))) ++ number_text (length (named s (entries r0)))) ++ of_string " (" ++ percent (length (named s (entries r0))) (length (entries r0)) ++ of_string "%)") ++ [10%N])
        with (line (of_string "  " ++ title s ++ repeat 32%N (w - length (title s)) ++ of_string ": " ++ repeat 32%N (v - length (number_text (length (named s (entries r0))))) ++ number_text (length (named s (entries r0))) ++ of_string " (" ++ percent (length (named s (entries r0))) (length (entries r0)) ++ of_string "%)"))
        by (unfold line, spaces; now rewrite <- !app_assoc).
      apply r_take; [now apply present_group with l|apply decimal_text|lia|rewrite En; lia|]. apply IH; auto.
      * intros x J; apply Ir; now right.
      * intros x Jo J. destruct (K x (or_intror Jo) J) as [E|]; [cbn in E; subst x; apply Fo in Jo; lia|assumption].
      * intros k m J. apply B. now right.
    + apply r_skip; [apply absent_group; intros J; apply Ns, K; auto; now left|]. apply IH; auto. intros x Jo J. apply K; auto. now right.
Qed.
Lemma all_order s : In s order.
Proof using. destruct s; cbn; auto 12. Qed.
Lemma report_printed quiet : r0 <> [] -> report percent (shown quiet) (entries r0) (print_results name percent quiet r0).
Proof using T.
  intros Ne. unfold print_results. cbv zeta. rewrite total_entries. destruct (T) as [Sr H].
  match goal with |- report _ _ _ (?g ++ println ([10%N] ++ of_string "Total Discovered Tests: " ++ ?d) ++ ?t) => change (g ++ println ([10%N] ++ of_string "Total Discovered Tests: " ++ d) ++ t) with (g ++ line [] ++ line (of_string "Total Discovered Tests: " ++ d) ++ t) end.
  rewrite !map_map. cbn [fst snd]. eapply rp_text.
  - apply groups_printed; auto using order_sorted, all_order, incl_refl. intros s _. apply all_order.
  - apply decimal_text.
  - assert (M1 := max_in (map (fun x : status * list (test * status) => length (label (fst x))) r0) ltac:(now destruct r0)).
    assert (M2 := max_in (map (fun x : status * list (test * status) => length (number_text (length (snd x)))) r0) ltac:(now destruct r0)).
    apply in_map_iff in M1 as ((s & l) & E1 & I1). apply in_map_iff in M2 as ((s' & l') & E2 & I2). split.
    + exists s. split; [now apply present_group with l|]. rewrite <- label_title. exact E1.
    + exists s', (number_text (length l')). splits; [now apply present_group with l'| |exact E2]. rewrite named_group with (l := l'); [rewrite map_length; apply decimal_text|intros k m J; now apply (H k m)|now apply sorted_nodup_keys|exact I2].
  - apply rows_printed; auto using order_sorted, incl_refl.
    + intros s _. apply all_order.
    + intros s l I. split; [apply max_ge, (in_map (fun x : status * list (test * status) => length (label (fst x))) r0 (s, l) I)|apply max_ge, (in_map (fun x : status * list (test * status) => length (number_text (length (snd x)))) r0 (s, l) I)].
Qed.
End Groups.

(** * A report says under which status every test is. *)
Lemma line_same (a b x y : str) : ~ In 10%N a -> ~ In 10%N b -> line a ++ x = line b ++ y -> a = b /\ x = y.
Proof.
  unfold line. revert b. induction a as [|c a IH]; intros [|d b] Na Nb E; cbn in E.
  - now injection E.
  - injection E as <- _. elim Nb. now left.
  - injection E as -> _. elim Na. now left.
  - injection E as -> E. destruct (IH b) as [-> ->]; auto; intros I; [apply Na|apply Nb]; now right.
Qed.
Lemma decimal_solid n d : decimal n d -> ~ In 10%N d.
Proof. induction 1; rewrite ?in_app_iff; cbn [In]; intuition lia. Qed.
Lemma title_solid s : ~ In 10%N (title s).
Proof. destruct s; cbn; intuition discriminate. Qed.
Lemma title_same s s' x y : title s ++ of_string " Tests (" ++ x = title s' ++ of_string " Tests (" ++ y -> s = s'.
Proof. destruct s, s'; cbn; intros E; try reflexivity; exfalso; repeat (injection E as E); discriminate. Qed.
Lemma names_same a : forall b x y, Forall (fun n => ~ In 10%N n) a -> Forall (fun n => ~ In 10%N n) b ->
  concat (map (fun n => line (of_string "  " ++ n)) a) ++ line [] ++ x = concat (map (fun n => line (of_string "  " ++ n)) b) ++ line [] ++ y -> a = b /\ x = y.
Proof.
  assert (Hn : forall n, ~ In 10%N n -> ~ In 10%N (of_string "  " ++ n)) by (intros n H I; apply in_app_iff in I as [I|I]; [cbn in I; intuition discriminate|auto]).
  induction a as [|n a IH]; intros [|m b] x y Fa Fb E; cbn [map concat] in E; rewrite <- ?app_assoc in E.
  - now injection E.
  - discriminate.
  - discriminate.
  - inversion Fa; inversion Fb; subst. apply line_same in E as [En E]; auto. destruct (IH b x y) as [-> ->]; auto. apply app_inv_head in En as ->. auto.
Qed.
Lemma group_same s s' a b g h x y : group s a g -> group s' b h -> Forall (fun n => ~ In 10%N n) a -> Forall (fun n => ~ In 10%N n) b -> g ++ x = h ++ y -> s = s' /\ a = b /\ x = y.
Proof.
  intros [d D] [d' D'] Fa Fb E. rewrite <- !app_assoc in E. apply line_same in E as [Eh E].
  - apply app_inv_head in Eh. apply title_same in Eh. split; [exact Eh|]. now apply names_same.
  - rewrite !in_app_iff. intros I. pose proof (title_solid s). apply decimal_solid in D. cbn in I. intuition discriminate.
  - rewrite !in_app_iff. intros I. pose proof (title_solid s'). apply decimal_solid in D'. cbn in I. intuition discriminate.
Qed.
Lemma groups_head l sh o g x : groups l sh o g -> (exists s h g', In s o /\ present l s /\ sh s /\ group s (named s l) h /\ g = h ++ g') \/ g ++ line [] ++ x = 10%N :: x.
Proof.
  induction 1 as [|s r t N G IH|s r h t P Sh Gr G IH]; [now right| |left; exists s, h, t; splits; auto; now left].
  destruct IH as [(s' & h & g' & I & IH)|IH]; [left; exists s', h, g'; split; [now right|exact IH]|now right].
Qed.
Lemma named_lines s (l : list (str * status)) : Forall (fun x => ~ In 10%N (fst x)) l -> Forall (fun n => ~ In 10%N n) (named s l).
Proof. intros F. unfold named. apply Forall_map. rewrite Forall_forall in *. intros x I. apply filter_In in I as [I _]. auto. Qed.
Lemma groups_same l l' sh o : NoDup o -> Forall (fun x => ~ In 10%N (fst x)) l -> Forall (fun x => ~ In 10%N (fst x)) l' ->
  forall g g' x y, groups l sh o g -> groups l' sh o g' -> g ++ line [] ++ x = g' ++ line [] ++ y -> forall s, In s o -> sh s -> named s l = named s l'.
Proof.
  intros Nd Fl Fl'. assert (Ab : forall (m : list (str * status)) s, sh s -> ~ (present m s /\ sh s) -> named s m = []).
  { intros m s Hs N. destruct (named s m) eqn:E; [reflexivity|]. elim N. split; [unfold present; rewrite E; discriminate|exact Hs]. }
  assert (Star : forall s a h z, group s a h -> exists z', h ++ z = 42%N :: z') by (intros s a h z [d D]; eexists; reflexivity).
  induction o as [|s o IH]; intros g g' x y G G' E q I Hq; [destruct I|]. inversion Nd as [|? ? Ns Nd']; subst.
  inversion G as [|? ? ? N G1|? ? h t P Sh Gr G1]; inversion G' as [|? ? ? N' G1'|? ? h' t' P' Sh' Gr' G1']; subst.
  - destruct I as [<-|I]; [now rewrite !Ab|]. eapply IH; eauto.
  - exfalso. destruct (groups_head _ _ _ _ x G1) as [(s' & k & k' & I' & _ & _ & Gk & ->)|Eh].
    + rewrite <- !app_assoc in E. destruct (group_same s' s _ _ _ _ _ _ Gk Gr' (named_lines _ _ Fl) (named_lines _ _ Fl') E) as (-> & _). contradiction.
    + rewrite Eh in E. rewrite <- app_assoc in E. destruct (Star _ _ _ (t' ++ line [] ++ y) Gr') as (z & Ez). rewrite Ez in E. discriminate.
  - exfalso. destruct (groups_head _ _ _ _ y G1') as [(s' & k & k' & I' & _ & _ & Gk & ->)|Eh].
    + rewrite <- !app_assoc in E. symmetry in E. destruct (group_same s' s _ _ _ _ _ _ Gk Gr (named_lines _ _ Fl') (named_lines _ _ Fl) E) as (-> & _). contradiction.
    + rewrite Eh in E. rewrite <- app_assoc in E. destruct (Star _ _ _ (t ++ line [] ++ x) Gr) as (z & Ez). rewrite Ez in E. discriminate.
  - rewrite <- !app_assoc in E. destruct (group_same s s _ _ _ _ _ _ Gr Gr' (named_lines _ _ Fl) (named_lines _ _ Fl') E) as (_ & En & E'). destruct I as [<-|I]; [exact En|]. eapply IH; eauto.
Qed.
(** Reports that are the same text list the same tests under each status that is shown. *)
Theorem report_unambiguous percent sh l l' t : Forall (fun x => ~ In 10%N (fst x)) l -> Forall (fun x => ~ In 10%N (fst x)) l' ->
  report percent sh l t -> report percent sh l' t -> forall s, sh s -> named s l = named s l'.
Proof.
  intros F F' R R' s Hs. destruct R as [g d w v u G D W Rw]. inversion R' as [g' d' w' v' u' G' D' W' Rw' E]. symmetry in E.
  eapply (groups_same l l' sh order); [| | |exact G|exact G'|exact E|apply all_order|exact Hs]; auto. apply sorted_nodup_keys, order_sorted.
Qed.
Print Assumptions report_unambiguous.

(** * Runs *)
Section Runs.
Context {test : Type} (selected : test -> bool) (exec : test -> option status) (name : test -> str) (percent : nat -> nat -> str) (details : test -> str).
Hypothesis never_skipped : forall t, exec t <> Some Skipped.
Hypothesis never_excluded : forall t, exec t <> Some Excluded.
Lemma reported_some (p : pool test) r : fst (conclude selected p) = Reported r -> (forall x, In x (po_sent p) -> snd x <> Skipped) -> r <> [].
Proof using exec.
  intros E H ->. destruct (collect_spec selected exec (po_sent p) (po_queue p)) as (r & P & _ & _ & _ & CR).
  { intros I. apply in_map_iff in I as (x & X & I). now apply (H x). }
  unfold conclude in E. rewrite CR in E. destruct (_ && _) eqn:B; cbn [fst] in E; [discriminate|]. injection E as ->. cbn in P. apply Permutation_nil in P. apply app_eq_nil in P as [P1 P2]. apply map_eq_nil in P2. rewrite P1, P2 in B. discriminate.
Qed.
(** What lit prints at the end of a run is a report on all its tests, but for those whose execution could not be tried. *)
Theorem run_report n tests p r quiet : 0 < n -> completed selected exec n tests p -> fst (conclude selected p) = Reported r ->
  exists l : list (test * status), Permutation (map fst l ++ po_errors p) tests /\
    Forall (fun x => (if selected (fst x) then exec (fst x) = Some (snd x) else snd x = Excluded) \/ (selected (fst x) = true /\ snd x = Skipped /\ po_errors p <> [])) l /\
    report percent (fun s => quiet = true -> failing s) (map (fun x => (name (fst x), snd x)) l) (print_results name percent quiet r).
Proof using never_skipped never_excluded.
  intros N C E. pose proof (C30_reported_once selected exec never_skipped n tests p N C) as H. rewrite E in H. destruct H as (Sr & Gr & P & Own).
  destruct (completed_good selected exec n tests p C N) as (_ & Rt & _ & _). exists (reported r). splits; auto. apply (report_printed name percent r (conj Sr Gr) quiet). eapply reported_some; [exact E|].
  intros x I X. rewrite Forall_forall in Rt. destruct (Rt x I) as [[A B]|[A B]]; [congruence|]. rewrite X in B. now apply never_skipped in B.
Qed.
(** The number of tests in it *)
Theorem run_total n tests p r : 0 < n -> completed selected exec n tests p -> fst (conclude selected p) = Reported r ->
  length (entries name r) + length (po_errors p) = length tests.
Proof using never_skipped never_excluded.
  intros N C E. pose proof (C30_reported_once selected exec never_skipped n tests p N C) as H. rewrite E in H. destruct H as (_ & _ & P & _). apply Permutation_length in P. rewrite <- P, app_length, map_length. unfold entries. now rewrite map_length.
Qed.
Lemma told_run quiet all verbose t s : told quiet all verbose (name t) (details t) s (print_run name details quiet all verbose (t, s)).
Proof using selected.
  unfold print_run. cbn [fst snd]. change println with line. replace (tag s) with (short s) by now destruct s. destruct (is_failure s) eqn:F.
  - apply failure_iff in F. destruct all; cbn [orb]; [apply t_all; auto|]. destruct verbose; [apply t_all; auto|]. rewrite app_nil_r. apply t_line; auto. intros [_ X]. discriminate.
  - assert (Nf : ~ failing s) by (intros X; apply failure_iff in X; congruence). destruct all; [rewrite orb_true_r; apply t_all; auto|]. destruct quiet; cbn [negb orb]; [now apply t_silent|]. rewrite app_nil_r. apply t_line; auto. tauto.
Qed.
(** While tests are run, each selected test is told about exactly once, and no other. *)
Theorem run_lines n tests p quiet all verbose : 0 < n -> completed selected exec n tests p -> (forall t, In t tests -> selected t = true -> exec t <> None) ->
  exists l : list (test * status), Permutation (map fst l) (filter selected tests) /\ Forall (fun x => exec (fst x) = Some (snd x)) l /\
    exists texts, Forall2 (fun x => told quiet all verbose (name (fst x)) (details (fst x)) (snd x)) l texts /\ printed name details selected quiet all verbose p = concat texts.
Proof using.
  intros N C H. destruct (completed_good selected exec n tests p C N) as (P & Rt & Er & Q). rewrite Forall_forall in Rt, Er.
  assert (NE : po_errors p = []). { destruct (po_errors p) as [|t er] eqn:Z; auto. exfalso. destruct (Er t (or_introl eq_refl)) as [E1 E2]. apply (H t); auto. eapply Permutation_in; [apply Permutation_sym, P|]. rewrite !in_app_iff. right. right. now left. }
  rewrite NE, (Q NE), app_nil_r in P. cbn [app] in P.
  exists (filter (fun x => selected (fst x)) (po_sent p)). splits.
  - assert (F : forall l : list (test * status), map fst (filter (fun x => selected (fst x)) l) = filter selected (map fst l)) by (induction l as [|x l IH]; cbn; [reflexivity|]; destruct (selected (fst x)); cbn; now rewrite IH).
    rewrite F. clear -P. symmetry in P. induction P; cbn; auto; [destruct (selected x); auto|destruct (selected x), (selected y); auto using perm_swap|eauto using Permutation_trans].
  - apply Forall_forall. intros x I. apply filter_In in I as [I Sx]. destruct (Rt x I) as [[A B]|[A B]]; [congruence|exact B].
  - exists (map (print_run name details quiet all verbose) (filter (fun x => selected (fst x)) (po_sent p))). split.
    + generalize (filter (fun x => selected (fst x)) (po_sent p)). induction l as [|(t, s) l IH]; constructor; [apply told_run|exact IH].
    + unfold printed. generalize (po_sent p). induction l as [|x l IH]; [reflexivity|]. cbn [flat_map filter]. destruct (selected (fst x)); cbn [map concat]; [now rewrite IH|exact IH].
Qed.
End Runs.
Print Assumptions run_report.
Print Assumptions run_lines.

(** * Listing tests, and the end *)
Section Modes.
Context {test : Type} (describe : test -> str * str * str) (selected : test -> bool).
(** All discovered tests are listed, in order. *)
Theorem tests_listed suites : suites <> [] ->
  lit_run describe selected ShowTests (Some suites) =
  ListedTests (line (of_string "-- Available Tests --") ++ concat (map (fun t => listed (fst (fst (describe t))) (snd (fst (describe t))) (snd (describe t))) (concat (map snd suites)))).
Proof using.
  intros H. destruct suites as [|x l]; [contradiction|]. unfold lit_run, print_tests. rewrite !flat_map_concat_map. do 3 f_equal. apply map_ext. intros t. destruct (describe t) as ((a, b), c). reflexivity.
Qed.
(** The exit code: 100 exactly if no suite is found, 0 for the listing modes otherwise, 1 if the suites cannot be loaded; and that of
    the run. *)
Theorem mode_codes (of_start : list test -> exit) m registry c : exit_code of_start (lit_run describe selected m registry) = c <->
  match registry with
  | None => c = 1
  | Some [] => c = 100
  | Some suites => match m with RunTests => (of_start (concat (map snd suites)) = Success /\ c = 0) \/ (of_start (concat (map snd suites)) <> Success /\ c = 1) | _ => c = 0 end
  end.
Proof using.
  destruct registry as [[|x l]|]; cbn; try (split; congruence). destruct m; cbn; try (split; congruence). rewrite flat_map_concat_map. cbn. destruct (of_start _); split; intros H; try (left; split; congruence); try (right; split; congruence); destruct H as [[A B]|[A B]]; congruence.
Qed.
(** The error for a run without tests is never given. *)
Theorem no_tests_refuted m registry : lit_run describe selected m registry <> NoTests.
Proof using. destruct registry as [[|x l]|]; cbn; try discriminate. destruct m; discriminate. Qed.
End Modes.
(** A run of suites without tests says that none were selected. *)
Theorem empty_run {test} (selected : test -> bool) exec n p : (forall t, exec t <> Some Skipped) -> (forall t, exec t <> Some Excluded) -> 0 < n -> completed selected exec n [] p ->
  conclude selected p = (NoTestsSelected 0, Error).
Proof.
  intros Hs He N C. destruct (C30_all_reported selected exec Hs He n [] p N C) as [[_ E]|[Nf _]]; [intros t []|exact E|elim Nf; constructor].
Qed.
Print Assumptions tests_listed.
Print Assumptions mode_codes.
Print Assumptions empty_run.
(** Tests that a filter leaves out are listed. *)
Theorem filter_refuted : exists (suites : list (str * list str)) (filter : str -> bool) t,
  In t (concat (map snd suites)) /\ is_selected (Some filter) None t = false /\
  exists a b, lit_run (fun t => (of_string "s", t, of_string "shtest")) (is_selected (Some filter) None) ShowTests (Some suites) = ListedTests (a ++ listed (of_string "s") t (of_string "shtest") ++ b).
Proof.
  exists [(of_string "s", [of_string "a"; of_string "b"])], (fun t => str_eqb t (of_string "a")), (of_string "b"). splits; [right; now left|reflexivity|].
  exists (line (of_string "-- Available Tests --") ++ listed (of_string "s") (of_string "a") (of_string "shtest")), []. vm_compute. reflexivity.
Qed.
(** A run of two tests, the second of which cannot be executed: the report is about one. *)
Definition one_of_two (t : bool) : option status := if t then Some Pass else None.
Theorem total_refuted : exists (p : pool bool) r, completed (fun _ => true) one_of_two 1 [true; false] p /\ conclude (fun _ => true) p = (Reported r, Failure) /\
  print_results (fun t : bool => if t then of_string "a" else of_string "b") (fun _ _ => of_string "100.00") false r =
    line (of_string "******************** Passed Tests (1):") ++ line (of_string "  a") ++ line [] ++ line [] ++ line (of_string "Total Discovered Tests: 1") ++ line (of_string "  Passed: 1 (100.00%)").
Proof.
  exists (@mkPool bool [] [Done] [(true, Pass)] [false] true), [(Pass, [(true, Pass)])]. splits.
  - split; [|repeat constructor].
    eapply steps_more; [|apply (S_error (fun _ : bool => true) one_of_two [] [] [] false [(true, Pass)] [] false); reflexivity]. eapply steps_more; [|apply (S_take (fun _ : bool => true) one_of_two [] false [] [] [(true, Pass)] [] false)].
    eapply steps_more; [|apply (S_run (fun _ : bool => true) one_of_two [false] [] [] true Pass [] [] false); reflexivity]. eapply steps_more; [|apply (S_take (fun _ : bool => true) one_of_two [false] true [] [] [] [] false)]. apply steps_refl.
  - reflexivity.
  - vm_compute. reflexivity.
Qed.
(** Reports with several groups *)
Definition some_results : @results string := [(Unresolved, [("c", Unresolved)]); (Pass, [("a", Pass); ("b", Pass)]); (Fail, [("d", Fail)])].
Example ex_tidy : tidy some_results.
Proof.
  split; [repeat constructor|]. intros k l [E|[E|[E|[]]]]; injection E as <- <-; (split; [discriminate|repeat constructor]).
Qed.
Example ex_report : print_results (of_string : string -> str) (fun n m => number_text (100 * n / m)) true some_results =
  line (of_string "******************** Unresolved Tests (1):") ++ line (of_string "  c") ++ line [] ++
  line (of_string "******************** Failed Tests (1):") ++ line (of_string "  d") ++ line [] ++ line [] ++
  line (of_string "Total Discovered Tests: 4") ++ line (of_string "  Unresolved: 1 (25%)") ++ line (of_string "  Passed    : 2 (50%)") ++ line (of_string "  Failed    : 1 (25%)").
Proof. vm_compute. reflexivity. Qed.
Example ex_decimal : decimal 120 (of_string "120").
Proof. apply (d_more 12 (of_string "12") 0); [lia|lia|]. apply (d_more 1 (of_string "1") 2); [lia|lia|]. apply (d_one 1). lia. Qed.
