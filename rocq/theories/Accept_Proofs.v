From Verif Require Import Base Text_Model Text_Spec Text_Proofs Cursor_Model Cursor_Spec Cursor_Proofs
  Check_Model Program_Model Check_Spec Check_Proofs Program_Proofs.

Section Accept.
Context {L : lang} (LO : lang_ok L).
Variables (b : bytes) (E : nat).
Hypothesis BE : block_end_ok b E.

Lemma found_run p s e en i en' : pm_run (L:=L) b p s e en = Some (i, en') <-> found b p s e en i en'.
Proof.
  unfold pm_run, found. split.
  - destruct (pm p b (mkRange s e) en) as [[m en1]| |]; try discriminate.
    destruct (m_ty m) eqn:T; try discriminate. destruct (m_info m) eqn:I; try discriminate.
    intros H. inj H. eauto.
  - intros (m & -> & -> & ->). reflexivity.
Qed.

Lemma found_det p s e en i j en1 en2 : found (L:=L) b p s e en i en1 -> found b p s e en j en2 -> j = i /\ en2 = en1.
Proof. intros A B. apply found_run in A, B. rewrite A in B. now inj B. Qed.

Definition kind_rules (k : kind) (p : pat L) : option (list (rule L)) :=
  match k with
  | KPlain => Some [RPlain p] | KNext => Some [RNext p] | KSame => Some [RSame p] | KEmpty => Some [REmpty]
  | KCount n => Some (repeat (RPlain p) n)
  | _ => None
  end.

Lemma one_rule r pos en is en' : rules_run (L:=L) b E [r] pos en = Some (is, en') <->
  exists i, rule_run b E r pos en = Some (i, en') /\ is = [i].
Proof.
  cbn [rules_run]. destruct (rule_run b E r pos en) as [[i en1]|]; split.
  - intros H. inj H. eauto.
  - intros (j & H & ->). now inj H.
  - discriminate.
  - intros (j & H & _). discriminate.
Qed.

Lemma next_of_lf pos nl : line_end b pos nl -> byte_at b nl LF -> next_of b pos = nl + 1.
Proof.
  intros LE B. unfold next_of. rewrite (eol_of_eq _ _ _ LE).
  assert (nl < length b) by (apply nth_error_Some; unfold byte_at in B; congruence).
  destruct (Nat.ltb_spec nl (length b)); lia.
Qed.
Lemma next_of_inside pos : pos <= length b -> next_of b pos < length b ->
  byte_at b (eol_of b pos) LF /\ next_of b pos = eol_of b pos + 1.
Proof.
  intros P. unfold next_of. destruct (eol_of_ok b pos P) as (R & _ & D).
  destruct (Nat.ltb_spec (eol_of b pos) (length b)); [|lia]. intros _. destruct D; [lia|]. auto.
Qed.

Lemma fires_iff k p pos en is en' : pos <= E -> k <> KCount 0 ->
  fires b E k p pos en is en' <->
  exists rs, kind_rules k p = Some rs /\ rules_run b E rs pos en = Some (is, en').
Proof.
  pose proof (E_len b E BE) as EL. intros P K.
  assert (CNT : forall n pos en is en', pos <= E -> rules_run b E (repeat (RPlain p) (S n)) pos en = Some (is, en') <->
     fires b E (KCount (S n)) p pos en is en').
  { clear pos en is en' P K. induction n as [|n IH]; intros pos en is en' P.
    - change (repeat (RPlain p) 1) with [RPlain p]. rewrite one_rule. split.
      + intros (i & H & ->). apply found_run in H. constructor; auto.
      + intros H. inversion H; subst. exists i. split; auto. now apply found_run.
    - change (repeat (RPlain p) (S (S n))) with (RPlain p :: repeat (RPlain p) (S n)).
      change (rules_run b E (RPlain p :: repeat (RPlain p) (S n)) pos en) with
       (match rule_run b E (RPlain p) pos en with
        | Some (i, en1) => match rules_run b E (repeat (RPlain p) (S n)) (rend (i_span i)) en1 with
                         | Some (is, en2) => Some (i :: is, en2) | None => None end
        | None => None end).
      destruct (rule_run b E (RPlain p) pos en) as [[i en1]|] eqn:R.
      + pose proof (rules_run_in LO b E BE [RPlain p] pos en [i] en1 ltac:(discriminate) P) as X.
        rewrite one_rule in X. specialize (X (ex_intro _ i (conj R eq_refl))). destruct X as (_ & _ & _ & X).
        simpl in X. apply found_run in R. specialize (IH (rend (i_span i)) en1).
        destruct (rules_run b E (repeat (RPlain p) (S n)) (rend (i_span i)) en1) as [[js en2]|] eqn:R2.
        * split.
          -- intros H. inj H. econstructor; eauto. apply IH; auto.
          -- intros H. inversion H; subst. pose proof (found_det _ _ _ _ _ _ _ _ R ltac:(eassumption)) as [-> ->].
             match goal with X : fires _ _ (KCount (S n)) _ _ _ _ _ |- _ => apply IH in X; auto; inj X end. reflexivity.
        * split; [discriminate|]. intros H. inversion H; subst.
          pose proof (found_det _ _ _ _ _ _ _ _ R ltac:(eassumption)) as [-> ->].
          match goal with X : fires _ _ (KCount (S n)) _ _ _ _ _ |- _ => apply IH in X; auto; discriminate end.
      + split; [discriminate|]. intros H. inversion H; subst.
        match goal with X : found _ _ _ _ _ _ _ |- _ => apply found_run in X; simpl in R; congruence end. }
  destruct k; simpl kind_rules; try (split; [intros H; inversion H|intros (rs & H & _); discriminate]).
  - (* plain *)
    split.
    + intros H. inversion H; subst. eexists; split; [reflexivity|]. apply one_rule. exists i. split; auto. now apply found_run.
    + intros (rs & [= <-] & H). apply one_rule in H as (i & H & ->). constructor. now apply found_run.
  - destruct n as [|n]; [congruence|]. rewrite <- CNT by auto. split; [eauto|]. intros (rs & [= <-] & H). exact H.
  - (* next *)
    split.
    + intros H. inversion H; subst. eexists; split; [reflexivity|]. apply one_rule. exists i. split; auto.
      simpl. rewrite (next_of_lf pos nl) by auto. destruct (Nat.leb_spec E (nl + 1)); [lia|].
      rewrite (eol_of_eq _ _ _ H3). now apply found_run.
    + intros (rs & [= <-] & H). apply one_rule in H as (i & H & ->). simpl in H.
      destruct (Nat.leb_spec E (next_of b pos)); [discriminate|]. apply found_run in H.
      destruct (next_of_inside pos) as [B1 B2]; [lia|lia|]. rewrite B2 in *.
      apply (F_next b E p pos en (eol_of b pos) (eol_of b (eol_of b pos + 1))); auto; apply eol_of_ok; lia.
  - (* same *)
    split.
    + intros H. inversion H; subst. eexists; split; [reflexivity|]. apply one_rule. exists i. split; auto.
      simpl. rewrite (eol_of_eq _ _ _ H0). apply found_run in H1. rewrite H1.
      destruct (Nat.ltb_spec (rstart (i_span i)) e); [auto|lia].
    + intros (rs & [= <-] & H). apply one_rule in H as (i & H & ->). simpl in H.
      destruct (pm_run b p pos (eol_of b pos) en) as [[i' en1]|] eqn:R; [|discriminate].
      destruct (Nat.ltb_spec (rstart (i_span i')) (eol_of b pos)); [|discriminate]. inj H.
      apply found_run in R. apply (F_same b E p pos en (eol_of b pos)); auto. apply eol_of_ok. lia.
  - (* empty *)
    split.
    + intros H. inversion H; subst; (eexists; split; [reflexivity|]); apply one_rule.
      * assert (LE : line_end b pos pos).
        { assert (pos < length b) by (apply nth_error_Some; unfold byte_at in *; congruence).
          split; [lia|]. split; [intros j J; lia|auto]. }
        exists (mkInfo (mkRange (pos + 1) (pos + 1)) 0 0). split; auto.
        simpl. rewrite (next_of_lf pos pos) by auto. rewrite (eol_of_eq _ _ _ LE), (eol_of_eq _ _ _ H1).
        rewrite !Nat.leb_refl. reflexivity.
      * exists (mkInfo (mkRange (length b) (length b)) 0 0). split; auto.
        assert (LE : line_end b (length b) (length b)) by (split; [lia|]; split; [intros j J; lia|auto]).
        simpl. unfold next_of. rewrite (eol_of_eq _ _ _ LE), Nat.ltb_irrefl, (eol_of_eq _ _ _ LE), Nat.leb_refl. reflexivity.
    + intros (rs & [= <-] & H). apply one_rule in H as (i & H & ->). simpl in H.
      destruct (eol_of_ok b pos) as (R1 & R2 & R3); [lia|].
      destruct (Nat.leb_spec (eol_of b pos) pos) as [Z|Z]; [|discriminate].
      assert (Q : eol_of b pos = pos) by lia.
      destruct (Nat.leb_spec (eol_of b (next_of b pos)) (next_of b pos)) as [Z2|Z2]; [|discriminate]. inj H.
      rewrite Q in R3. destruct R3 as [R3|R3].
      * unfold next_of. rewrite Q, R3, Nat.ltb_irrefl. constructor.
      * assert (LE : line_end b pos pos) by (split; [lia|]; split; [intros j J; lia|auto]).
        assert (PL : pos < length b) by (apply nth_error_Some; unfold byte_at in *; congruence).
        rewrite (next_of_lf pos pos) in * by auto. constructor; auto.
        destruct (eol_of_ok b (pos + 1)) as (S1 & S2 & S3); [lia|].
        replace (eol_of b (pos + 1)) with (pos + 1) in * by lia. split; [lia|]. split; auto.
Qed.

Lemma items_pos k p ls rs : kind_rules k p = Some rs -> forall nots strict pos en,
  irun b E (items_of (mkLine k p :: ls)) nots strict pos en =
  match rules_run b E rs pos en with
  | Some (o, en1) =>
      if (nots_ok b nots pos (first_start o) en1 && gap strict pos o)%bool
      then then_run o (irun b E (items_of ls) [] false (last_end pos o) en1)
      else None
  | None => None
  end.
Proof. intros H nots strict pos en. destruct k; simpl in H; try discriminate; injection H as <-; reflexivity. Qed.

Lemma items_not p (ls : list (line L)) nots strict pos en : unlabelled ls ->
  irun b E (items_of (mkLine KNot p :: ls)) nots strict pos en = irun b E (items_of ls) (nots ++ [p]) strict pos en.
Proof.
  intros U. change (items_of (mkLine KNot p :: ls)) with (cons_line (mkLine KNot p) (items_of ls)).
  unfold cons_line. simpl l_kind. cbv iota. simpl l_pat.
  destruct (items_of ls) as [|[ps| | |] r]; try reflexivity.
  cbn [irun]. now rewrite <- app_assoc.
Qed.

Lemma dag_split (ls : list (line L)) : exists ds rest, ls = map (mkLine KDag) ds ++ rest /\ head_kind rest <> Some KDag.
Proof.
  induction ls as [|[k p] ls IH]; [exists [], []; split; [auto|discriminate]|].
  destruct k; try (exists []; eexists; split; [reflexivity|discriminate]).
  destruct IH as (ds & rest & -> & H). exists (p :: ds), rest. auto.
Qed.

Lemma items_dag ds (ls : list (line L)) : ds <> [] -> head_kind ls <> Some KDag -> unlabelled ls ->
  items_of (map (mkLine KDag) ds ++ ls) = IDags ds (line_touchy ls) :: items_of ls.
Proof.
  intros NE H U. destruct ds as [|p ds]; [congruence|]. simpl map. simpl app.
  rewrite items_dags; auto.
  - f_equal. f_equal. f_equal. rewrite map_map. simpl. apply map_id.
  - apply Forall_forall. intros x X. apply in_map_iff in X as (q & <- & _). reflexivity.
  - destruct ls as [|[k q] r]; auto. inversion U; subst. split; auto. simpl in H. unfold is_kind_dag. simpl. destruct k; auto; congruence.
Qed.

Lemma absent_iff ps s e en : s <= e <= length b -> absent b ps s e en <-> nots_ok (L:=L) b ps s e en = true.
Proof.
  intros H. unfold absent, nots_ok. destruct ps as [|p ps]; [split; auto|].
  unfold absentb. destruct (ok_nm L LO (p :: ps) b s e en H) as (m & M & _). rewrite M. split.
  - intros [D|(m' & en' & D & N)]; [discriminate|]. inj D. now rewrite N.
  - intros N. right. exists m, en. split; auto. now apply negb_true_iff.
Qed.

Lemma touchy_line ls : touchy (L:=L) ls <-> line_touchy ls = true.
Proof. unfold touchy, head_kind, line_touchy. destruct ls as [|[k p] r]; [easy|]. simpl. destruct k; easy. Qed.

Lemma gap_iff strict pos o : gap strict pos o = true <-> (strict = true -> pos < first_start o).
Proof. unfold gap. destruct strict; simpl; [rewrite Nat.ltb_lt; tauto|]. split; auto; discriminate. Qed.

Lemma nonempty_rules k p rs : k <> KCount 0 -> kind_rules k p = Some rs -> rs <> [].
Proof. destruct k; simpl; intros K H; injection H as <- || discriminate H; try discriminate. destruct n; [congruence|discriminate]. Qed.

Theorem accepts_irun (ls : list (line L)) : forall nots strict pos en out en', unlabelled ls -> counts_ok ls -> pos <= E ->
  accepts b E ls nots strict pos en out en' <-> irun b E (items_of ls) nots strict pos en = Some (out, en').
Proof.
  pose proof (E_len b E BE) as EL.
  intros nots strict pos en out en' U C P. split.
  - intros A. revert U C P. induction A; intros U C P.
    + simpl. apply absent_iff in H; [|lia]. now rewrite H.
    + inversion U; subst. inversion C; subst. rewrite items_not by auto. apply IHA; auto.
    + inversion U as [|? ? U1 U2]; inversion C as [|? ? C1 C2]; subst. simpl in U1, C1.
      apply fires_iff in H as (rs & K & R); auto.
      destruct (rules_run_in LO b E BE rs pos en is en1 (nonempty_rules _ _ _ C1 K) P R) as (X1 & X2 & X3 & X4).
      rewrite (items_pos k p ls rs K), R. apply absent_iff in H0; [|lia]. rewrite H0.
      apply gap_iff in H1. rewrite H1. simpl andb. cbv iota. rewrite IHA by auto. reflexivity.
    + apply Forall_app in U as [_ U]. apply Forall_app in C as [_ C].
      rewrite items_dag by auto. cbn [irun].
      assert (R : dag_run b E ds pos en = Some (infos ms, en1)) by (unfold dag_run; rewrite H1, H2; reflexivity).
      rewrite R. destruct (dag_run_in LO b E BE ds pos en _ en1 H P R) as (X1 & X2 & X3 & X4).
      apply absent_iff in H3; [|lia]. rewrite H3.
      assert (T : line_touchy ls = touch).
      { rewrite touchy_line in H4. destruct touch, (line_touchy ls); auto; destruct H4 as [H4a H4b]; intuition congruence. }
      rewrite T, IHA by auto. reflexivity.
  - revert nots strict pos en out en' U C P. remember (length ls) as n eqn:LN. revert ls LN.
    induction n as [n IH] using lt_wf_ind. intros ls LN nots strict pos en out en' U C P H.
    destruct ls as [|[k p] ls].
    + simpl in H. destruct (nots_ok b nots pos E en) eqn:NK; [|discriminate]. inj H. constructor. apply absent_iff; auto; lia.
    + inversion U as [|? ? U1 U2]; inversion C as [|? ? C1 C2]; subst. simpl in *.
      destruct (kind_rules k p) as [rs|] eqn:K.
      * change (irun b E (items_of (mkLine k p :: ls)) nots strict pos en = Some (out, en')) in H.
        rewrite (items_pos k p ls rs K) in H. destruct (rules_run b E rs pos en) as [[o en1]|] eqn:R; [|discriminate].
        destruct (rules_run_in LO b E BE rs pos en o en1 (nonempty_rules _ _ _ C1 K) P R) as (X1 & X2 & X3 & X4).
        destruct (nots_ok b nots pos (first_start o) en1) eqn:NK; [|discriminate].
        destruct (gap strict pos o) eqn:GP; [|discriminate]. simpl in H.
        destruct (irun b E (items_of ls) [] false (last_end pos o) en1) as [[o2 en2]|] eqn:R2; [|discriminate].
        simpl in H. inj H. apply A_pos with (en1 := en1).
        -- apply fires_iff; eauto.
        -- apply absent_iff; auto; lia.
        -- now apply gap_iff.
        -- eapply (IH (length ls)); auto.
      * destruct k; try discriminate; try congruence.
        -- change (irun b E (items_of (mkLine KNot p :: ls)) nots strict pos en = Some (out, en')) in H.
           rewrite items_not in H by auto. constructor. eapply (IH (length ls)); auto.
        -- destruct (dag_split (mkLine KDag p :: ls)) as (ds & rest & EQ & HK).
           assert (NE : ds <> []). { intros ->. simpl in EQ. subst rest. apply HK. reflexivity. }
           change (irun b E (items_of (mkLine KDag p :: ls)) nots strict pos en = Some (out, en')) in H.
           rewrite EQ in *. apply Forall_app in U as [_ U]. apply Forall_app in C as [_ C].
           rewrite items_dag in H by auto. cbn [irun] in H.
           destruct (dag_run b E ds pos en) as [[o en1]|] eqn:R; [|discriminate].
           destruct (dag_run_in LO b E BE ds pos en _ en1 NE P R) as (X1 & X2 & X3 & X4).
           destruct (nots_ok b nots pos (first_start o) en1) eqn:NK; [|discriminate].
           destruct (irun b E (items_of rest) [] (line_touchy rest) (last_end pos o) en1) as [[o2 en2]|] eqn:R2; [|discriminate].
           inj H. unfold dag_run in R. destruct (dm ds b (mkRange pos E) en) as [[[ms en3] stop]| |] eqn:D; try discriminate.
           destruct (ms_ok ms) eqn:MO; [|discriminate]. inj R.
           eapply A_dag with (touch := line_touchy rest); eauto.
           ++ apply absent_iff; auto; lia.
           ++ symmetry. apply touchy_line.
           ++ eapply (IH (length rest)); auto.
              assert (LL : length (mkLine KDag p :: ls) = length (map (mkLine KDag) ds ++ rest)) by (now rewrite EQ).
              rewrite app_length, map_length in LL. simpl in LL. destruct ds; [congruence|]. simpl in LL. lia.
Qed.

Lemma closing_wf (g : group L) : closing g -> never_or_wf g.
Proof.
  destruct g as [| | | | |t]; intros C; try exact I; try exact (leaf_wf _ C).
  destruct t; try exact (opn_tree_wf _ C). destruct C as [_ C]. exact (opn_tree_wf _ C).
Qed.

(** A block of the compiled program, from the directives it was compiled from. *)
Theorem block_accepts (groups : list (group L)) body t (s : state L) : st_ok b E s -> unlabelled body -> counts_ok body ->
  rshape (rev groups) -> flats groups = items_of body ->
  (forall out en', accepts b E body [] false (pos_of s) (s_env s) out en' ->
     exists t' s', check_groups groups t s = Val (t', s') /\ t_errors t' = t_errors t /\
       t_matches t' = t_matches t ++ out /\ s_env s' = en' /\ st_ok b E s') /\
  (forall t' s', check_groups groups t s = Val (t', s') -> t_errors t' = [] ->
     exists out en', accepts b E body [] false (pos_of s) (s_env s) out en' /\
       t_matches t' = t_matches t ++ out /\ s_env s' = en' /\ st_ok b E s').
Proof.
  intros ST U C SH FL. pose proof (st_pos b E BE s ST) as P.
  assert (W : Forall never_or_wf groups).
  { rewrite <- (rev_involutive groups). apply Forall_rev. destruct (rev groups) as [|g r]; auto. destruct SH as [S1 S2].
    constructor.
    - now apply closing_wf.
    - eapply Forall_impl; [|exact S2]. intros a Ha. now apply closing_wf, opn_closing. }
  pose proof (check_groups_run LO b E BE groups t s ST W) as D.
  rewrite (gsrun_irun LO b E BE groups) in D by auto. rewrite FL in D. split.
  - intros out en' A. apply accepts_irun in A; auto. rewrite A in D. exact D.
  - intros t' s' H N. destruct (irun b E (items_of body) [] false (pos_of s) (s_env s)) as [[out en']|] eqn:R.
    + destruct D as (t1 & s1 & H1 & _ & TM & EN & ST1). rewrite H in H1. inj H1. exists out, (s_env s1).
      splits; auto. apply accepts_irun; auto.
    + exfalso. exact (D _ _ H N).
Qed.
End Accept.
