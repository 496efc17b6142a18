(** C33, C34: substitutions. *)
From Coq Require Import String.
From Verif Require Import Base Cursor_Model Map_Model Script_Model Script_Proofs Sub_Model Sub_Spec.
Notation length := List.length.
Open Scope string_scope. Open Scope list_scope.
Ltac splits := repeat match goal with |- _ /\ _ => split end.

Definition tidy (s : scoped) : Prop := NoDup (keys (parent s)) /\ NoDup (keys (own s)).
Lemma lookup_In k v (m : list (str * str)) : NoDup (keys m) -> (lookup k m = Some v <-> In (k, v) m).
Proof.
  induction m as [|[k' v'] m IH]; cbn [lookup map fst]; intros ND; [split; [discriminate|easy]|]. inversion ND as [|? ? NI ND']; subst. destruct (str_eqb k' k) eqn:E.
  - apply str_eqb_eq in E as ->. split; [intros [= ->]; now left|]. intros [[= ->]|I]; auto. exfalso. apply NI. change k with (fst (k, v)). now apply in_map.
  - rewrite IH by auto. split; [now right|]. intros [[= -> ->]|I]; auto. assert (str_eqb k k = true) by now apply str_eqb_eq. congruence.
Qed.
Lemma lookup_None k (m : list (str * str)) : NoDup (keys m) -> (lookup k m = None <-> forall w, ~ In (k, w) m).
Proof.
  intros ND. split.
  - intros H w I. apply lookup_In in I; auto. congruence.
  - intros H. destruct (lookup k m) as [v|] eqn:E; auto. apply lookup_In in E; auto. now apply H in E.
Qed.
Lemma sget_visible s k v : tidy s -> (sget k s = Some v <-> visible s k v).
Proof.
  intros [NP NO]. unfold sget, visible. destruct (lookup k (own s)) as [w|] eqn:E.
  - apply lookup_In in E as I; auto. split.
    + intros [= ->]. auto.
    + intros [H|[H _]]; [|now apply H in I]. apply lookup_In in H; auto. congruence.
  - pose proof (proj1 (lookup_None _ _ NO) E) as N. rewrite lookup_In by auto. split; [auto|]. intros [H|[_ H]]; auto. now apply N in H.
Qed.
Lemma scontains_seen s k : tidy s -> (scontains k s = true <-> seen s k).
Proof.
  intros T. unfold scontains, seen. destruct (sget k s) as [v|] eqn:E.
  - split; auto. intros _. exists v. now apply sget_visible.
  - split; [discriminate|]. intros (v & H). apply sget_visible in H; auto. congruence.
Qed.
Lemma contains_spec p s : contains p s = true <-> occurs p s.
Proof.
  assert (G : contains p s = true -> occurs p s).
  { induction s as [|c s IH]; cbn [contains]; (destruct (strip_prefix p _) as [r|] eqn:E; [apply strip_prefix_spec in E; exists [], r; auto|]); [discriminate|].
    intros H. destruct (IH H) as (a & b & ->). now exists (c :: a), b. }
  split; auto. intros (a & b & ->). clear G. induction a as [|c a IH]; cbn [app contains].
  - assert (X : strip_prefix p (p ++ b) = Some b) by now apply strip_prefix_spec. destruct (p ++ b); cbn [contains]; rewrite X; reflexivity.
  - destruct (strip_prefix p (c :: a ++ p ++ b)); [reflexivity|]. exact IH.
Qed.
Lemma siter_seen s k v : tidy s -> In (k, v) (siter s) -> visible s k v.
Proof.
  intros T I. unfold siter in I. apply in_app_iff in I as [I|I]; [|now left]. apply in_map_iff in I as ([k' w] & [= -> E] & I). cbn [fst snd] in E. destruct T as [NP NO].
  destruct (lookup k (own s)) as [x|] eqn:L; subst v.
  - left. now apply lookup_In.
  - right. split; auto. now apply lookup_None.
Qed.
Lemma seen_siter s k : seen s k -> exists v, In (k, v) (siter s).
Proof.
  intros (v & [H|[_ H]]); unfold siter; [exists v; apply in_app_iff; auto|]. eexists. apply in_app_iff. left. apply in_map_iff. exists (k, v). split; [reflexivity|auto].
Qed.
Lemma fuzzy_spec s k : tidy s -> (existsb (fun kv => negb (str_eqb (fst kv) k) && contains k (fst kv)) (siter s) = true <-> ambiguous s k).
Proof.
  intros T. rewrite existsb_exists. unfold ambiguous. split.
  - intros ([k' v] & I & H). cbn in H. apply andb_true_iff in H as [H1 H2]. exists k'. splits; [exists v; now apply siter_seen| |now apply contains_spec].
    intros ->. assert (str_eqb k k = true) by now apply str_eqb_eq. rewrite H in H1. discriminate.
  - intros (k' & S & N & O). destruct (seen_siter s k' S) as (v & I). exists (k', v). split; auto. cbn. apply andb_true_iff. split; [|now apply contains_spec].
    apply negb_true_iff, not_true_iff_false. rewrite str_eqb_eq. auto.
Qed.
Lemma visible_insert s k v : tidy s -> tidy (sinsert k v s) /\ forall k' v', visible (sinsert k v s) k' v' <-> k' = k /\ v' = v \/ k' <> k /\ visible s k' v'.
Proof.
  intros [NP NO]. assert (T' : tidy (sinsert k v s)) by (split; cbn; auto; now apply nodup_im_insert). split; auto. intros k' v'.
  rewrite <- sget_visible by auto. rewrite <- sget_visible by (split; auto). unfold sget. cbn [own parent sinsert]. rewrite lookup_im_insert. destruct (str_eqb k k') eqn:E.
  - apply str_eqb_eq in E as ->. split; [intros [= ->]; auto|]. intros [[_ ->]|[N _]]; congruence.
  - assert (N : k' <> k) by (intros ->; assert (str_eqb k k = true) by (now apply str_eqb_eq); congruence). split; [auto|]. intros [[X _]|[_ H]]; congruence.
Qed.
(** C33: DEFINE succeeds iff the key is not visible; REDEFINE iff it is and no other visible key has it
    inside; nothing but the key's own value changes, and a failure changes nothing. *)
Theorem C33_define_partial s k v : tidy s ->
  ((exists s', define k v false s = inl s') <-> ~ seen s k) /\
  ((exists s', define k v true s = inl s') <-> seen s k /\ ~ ambiguous s k) /\
  (forall b s', define k v b s = inl s' -> tidy s' /\
     forall k' v', visible s' k' v' <-> k' = k /\ v' = v \/ k' <> k /\ visible s k' v').
Proof.
  intros T. unfold define, find_matching. pose proof (scontains_seen s k T) as C. pose proof (fuzzy_spec s k T) as F. destruct (scontains k s).
  - assert (SK : seen s k) by now apply C. destruct (existsb _ (siter s)).
    + assert (A : ambiguous s k) by now apply F. splits.
      * split; [now intros (s' & ?)|contradiction].
      * split; [now intros (s' & ?)|tauto].
      * intros [|] s'; discriminate.
    + assert (A : ~ ambiguous s k) by (intros X; apply F in X; discriminate). splits.
      * split; [now intros (s' & ?)|contradiction].
      * split; [auto|eauto].
      * intros [|] s' [= <-]. now apply visible_insert.
  - assert (SK : ~ seen s k) by (intros X; apply C in X; discriminate). splits.
    + split; [auto|eauto].
    + split; [now intros (s' & ?)|tauto].
    + intros [|] s' [= <-]. now apply visible_insert.
Qed.
(** C33 is false of DEFINE when another key has this one inside: it is accepted. *)
Theorem C33_conflict_refuted : exists s k v s', tidy s /\ ambiguous s k /\ define k v false s = inl s'.
Proof.
  exists (mkScoped [(of_string "x%{a}", of_string "1")] []), (of_string "%{a}"), (of_string "2"). eexists. splits; [split; repeat constructor; easy| |vm_compute; reflexivity].
  exists (of_string "x%{a}"). splits; [|discriminate|now exists (of_string "x"), []]. exists (of_string "1"). right. split; [easy|]. now left.
Qed.

Section Sub.
Context (rx : str -> str -> str -> option (option str)).
(** C33: a RUN line is read with the substitutions visible at its place: what the configuration and the
    test say, as changed by the definitions before it. *)
Lemma commands_prefix l1 : forall l2 s l' s', apply_commands rx (l1 ++ l2) s = inl (l', s') ->
  exists l1' s1 l2', apply_commands rx l1 s = inl (l1', s1) /\ apply_commands rx l2 s1 = inl (l2', s') /\ l' = l1' ++ l2' /\ length l1' = length l1.
Proof.
  induction l1 as [|[n t|n k v b] l1 IH]; intros l2 s l' s' H; cbn [app apply_commands] in *.
  - exists [], s, l'. auto.
  - destruct (apply rx s t) as [t'|]; [|discriminate]. destruct (apply_commands rx (l1 ++ l2) s) as [[r' s2]|] eqn:E; [|discriminate]. injection H as <- <-.
    apply IH in E as (l1' & s1 & l2' & -> & E2 & -> & L). exists (Run n t' :: l1'), s1, l2'. splits; auto. cbn. congruence.
  - destruct (define k v b s) as [s0|]; [|discriminate]. destruct (apply_commands rx (l1 ++ l2) s0) as [[r' s2]|] eqn:E; [|discriminate]. injection H as <- <-.
    apply IH in E as (l1' & s1 & l2' & -> & E2 & -> & L). exists (Subst n k v b :: l1'), s1, l2'. splits; auto. cbn. congruence.
Qed.
Lemma defined_inv s k v l x : defined s k v (l ++ [x]) ->
  match x with Run _ _ => defined s k v l | Subst _ k' v' _ => k' = k /\ v' = v \/ k' <> k /\ defined s k v l end.
Proof.
  intros H. inversion H as [V E|l' n b E|l' n k' v' b N D E|l' n t D E]; try (now destruct l); apply app_inj_tail in E as [-> <-]; auto.
Qed.
Lemma commands_defined l : forall s l' s', tidy s -> apply_commands rx l s = inl (l', s') -> tidy s' /\ forall k v, visible s' k v <-> defined s k v l.
Proof.
  induction l as [|x l IH] using rev_ind; intros s l' s' T H.
  - injection H as _ <-. split; auto. intros k v. split; [now constructor|]. intros D. inversion D as [V|l0 ? ? E|l0 ? ? ? ? ? ? E|l0 ? ? ? E]; auto; now destruct l0.
  - apply commands_prefix in H as (l1' & s1 & l2' & H1 & H2 & _ & _). destruct (IH _ _ _ T H1) as [T1 V1]. destruct x as [n t|n k0 v0 b]; cbn [apply_commands] in H2.
    + destruct (apply rx s1 t); [|discriminate]. injection H2 as _ <-. split; auto. intros k v. rewrite V1. split; [now constructor|]. intros D. now apply defined_inv in D.
    + destruct (define k0 v0 b s1) as [s2|] eqn:D; [|discriminate]. injection H2 as _ <-. destruct (proj2 (proj2 (C33_define_partial s1 k0 v0 T1)) b s2 D) as [T2 V2]. split; auto.
      intros k v. rewrite V2, V1. split.
      * intros [[-> ->]|[N X]]; [apply d_here|apply d_other; auto].
      * intros X. apply defined_inv in X as [[-> ->]|[N X]]; auto.
Qed.
Theorem C33_scope l1 n t l2 s l' s' : tidy s -> apply_commands rx (l1 ++ Run n t :: l2) s = inl (l', s') ->
  exists s1 t' l1' l2', l' = l1' ++ Run n t' :: l2' /\ length l1' = length l1 /\ apply rx s1 t = inl t' /\ tidy s1 /\ parent s1 = parent s /\
    forall k v, visible s1 k v <-> defined s k v l1.
Proof.
  intros T H. apply commands_prefix in H as (l1' & s1 & l2' & H1 & H2 & -> & L). cbn [apply_commands] in H2. destruct (apply rx s1 t) as [t'|] eqn:A; [|discriminate].
  destruct (apply_commands rx l2 s1) as [[r' s2]|]; [|discriminate]. injection H2 as <- _. destruct (commands_defined _ _ _ _ T H1) as [T1 V]. exists s1, t', l1', r'. splits; auto.
  clear - H1. revert s l1' H1. induction l1 as [|[n t|n k v b] l1 IH]; intros s l1' H; cbn [apply_commands] in H.
  - now injection H as _ <-.
  - destruct (apply rx s t); [|discriminate]. destruct (apply_commands rx l1 s) as [[r x]|] eqn:E; [|discriminate]. injection H as _ <-. eapply IH. exact E.
  - destruct (define k v b s) as [s0|] eqn:D; [|discriminate]. destruct (apply_commands rx l1 s0) as [[r x]|] eqn:E; [|discriminate]. injection H as _ <-. rewrite (IH _ _ E).
    unfold define in D. destruct (find_matching k s), b; try discriminate; injection D as <-; reflexivity.
Qed.
(** C33 is false in effect: a definition whose key is not a regular expression - and no key of a DEFINE
    is one for the engine used, since it has the form %{name} - makes every later command fail. *)
Theorem C33_unusable_refuted k v b s s' t : tidy s -> define k v b s = inl s' -> (forall r x, rx k r x = None) -> exists e, apply rx s' t = inr e.
Proof.
  intros T D N. destruct (proj2 (proj2 (C33_define_partial s k v T)) b s' D) as [T' V]. destruct (seen_siter s' k) as (w & I). { exists v. apply V. auto. }
  unfold apply. assert (G : forall l buf es un, In (k, w) l -> exists e, apply_all rx l buf es un = inr e).
  { induction l as [|[p r] l IH]; intros buf es un J; [easy|]. cbn [apply_all]. destruct (if es then _ else _) as [[buf1 es1] un1]. destruct J as [[= -> ->]|J]; [rewrite N; eauto|].
    destruct (rx p r buf1) as [[x|]|]; eauto. }
  destruct (G (siter s') t true false I) as (e & ->). eauto.
Qed.
End Sub.

(** ** Replacement of plain text *)
Lemma replaced_replace p v s : p <> [] -> replaced p v s (replace_text p v s).
Proof.
  intros P. unfold replace_text. assert (G : forall f s, length s < f -> replaced p v s (replace_from f p v s)).
  { induction f as [|f IH]; intros s0 L; [lia|]. cbn [replace_from]. destruct (strip_prefix p s0) as [r|] eqn:E.
    - apply strip_prefix_spec in E as ->. apply rp_hit, IH. rewrite app_length in L. destruct p; [congruence|cbn in L; lia].
    - destruct s0 as [|c t]; [constructor|]. apply rp_miss; [|apply IH; cbn in L; lia]. intros r X. apply strip_prefix_spec in X. congruence. }
  apply G. lia.
Qed.
Lemma replaced_fun p v s t : p <> [] -> replaced p v s t -> forall t', replaced p v s t' -> t = t'.
Proof.
  intros P. induction 1 as [|s t H IH|c s t N H IH]; intros t' H'.
  - inversion H' as [|s0 t0 H0 E|]; auto. destruct p; [congruence|discriminate].
  - inversion H' as [E|s0 t0 H0 E|c s0 t0 N0 H0 E]; subst.
    + destruct p; [congruence|discriminate].
    + apply app_inv_head in E as ->. f_equal. auto.
    + now apply N0 in E.
  - inversion H' as [|s0 t0 H0 E|c0 s0 t0 N0 H0 E]; subst.
    + symmetry in E. now apply N in E.
    + f_equal. auto.
Qed.
Lemma replaced_id p v s : ~ occurs p s -> replaced p v s s.
Proof.
  induction s as [|c s IH]; intros N; [constructor|]. apply rp_miss.
  - intros r E. apply N. exists [], r. exact E.
  - apply IH. intros (a & b & ->). apply N. now exists (c :: a), b.
Qed.
Lemma occurs1 (c : N) s : occurs [c] s <-> In c s.
Proof.
  split.
  - intros (a & b & ->). apply in_app_iff. right. now left.
  - intros I. apply in_split in I as (a & b & ->). now exists a, b.
Qed.
Lemma occurs_cons p c s : occurs p s -> occurs p (c :: s).
Proof. intros (a & b & ->). now exists (c :: a), b. Qed.
Lemma occurs2_cons (x c : N) s : occurs [x; x] (c :: s) -> c = x /\ (exists t, s = x :: t) \/ occurs [x; x] s.
Proof.
  intros (a & b & E). destruct a as [|y a]; cbn in E; injection E as <- E; [left; eauto|]. right. now exists a, b.
Qed.
Definition pc : N := 37%N.
Definition hash : N := 35%N.
(** results keep single percent signs single *)
Lemma replaced_head p v s t : (exists r, p = pc :: r) -> replaced p v s t -> forall t', t = pc :: t' -> exists s', s = pc :: s'.
Proof.
  intros (r & ->) H. destruct H as [|s t H|c s t N H]; intros t' E; [discriminate|eexists; reflexivity|]. injection E as -> _. eauto.
Qed.
Lemma occurs2_app v t : ~ occurs [pc; pc] v -> (forall x, v <> x ++ [pc]) -> ~ occurs [pc; pc] t -> ~ occurs [pc; pc] (v ++ t).
Proof.
  intros N1 N2 N3. induction v as [|c v IH]; auto. cbn [app]. intros O. apply occurs2_cons in O as [[-> (y & E)]|O].
  - destruct v as [|d v]; [now apply (N2 [])|]. injection E as -> _. apply N1. now exists [], v.
  - revert O. apply IH; [intros O; apply N1; now apply occurs_cons|]. intros x ->. now apply (N2 (c :: x)).
Qed.
Lemma replaced_single p v s t : (exists r, p = pc :: r) -> ~ occurs [pc; pc] v -> (forall x, v <> x ++ [pc]) ->
  replaced p v s t -> ~ occurs [pc; pc] s -> ~ occurs [pc; pc] t.
Proof.
  intros P N1 N2. induction 1 as [|s t H IH|c s t N H IH]; intros O; auto.
  - apply occurs2_app; auto. apply IH. intros (a & b & ->). apply O. exists (p ++ a), b. now rewrite app_assoc.
  - intros X. apply occurs2_cons in X as [[-> (y & ->)]|X].
    + destruct (replaced_head p v s (pc :: y) P H y eq_refl) as (z & ->). apply O. now exists [], z.
    + revert X. apply IH. intros Y. apply O. now apply occurs_cons.
Qed.
Lemma replaced_nohash p v s t : ~ In hash v -> replaced p v s t -> ~ In hash s -> ~ In hash t.
Proof.
  intros NV. induction 1 as [|s t H IH|c s t N H IH]; intros NS; auto.
  - rewrite in_app_iff in *. tauto.
  - cbn in *. intuition.
Qed.
(** ** The marker separates the pieces *)
Lemma replaced_marker p v r u : (exists q, p = pc :: q) -> replaced p v r u -> replaced p v (MARKER ++ r) (MARKER ++ u).
Proof.
  intros (q & ->) H. cbn. repeat (apply rp_miss; [intros x; discriminate|]). exact H.
Qed.
Lemma replaced_app p v s t : ~ In hash p -> replaced p v s t -> forall r u, r = [] \/ (exists r', r = hash :: r') -> replaced p v r u -> replaced p v (s ++ r) (t ++ u).
Proof.
  intros NP. induction 1 as [|s t H IH|c s t N H IH]; intros r u R HR; auto.
  - rewrite <- !app_assoc. apply rp_hit. auto.
  - cbn [app]. apply rp_miss; auto. intros x E. change (c :: s ++ r) with ((c :: s) ++ r) in E. apply app_eq_app in E as (l & [[E1 E2]|[E1 E2]]).
    + now apply N in E1.
    + destruct R as [->|(r' & ->)].
      * destruct l; [|discriminate]. rewrite app_nil_r in E1. apply (N []). now rewrite app_nil_r.
      * destruct l as [|y l]; [rewrite app_nil_r in E1; apply (N []); now rewrite app_nil_r|]. injection E2 as <- _. apply NP. rewrite E1. apply in_app_iff. right. now left.
Qed.
Lemma joined_cons sep c d r : joined sep (c :: d :: r) = c ++ sep ++ joined sep (d :: r).
Proof. reflexivity. Qed.
Lemma replaced_joined p v cs cs' : (exists q, p = pc :: q) -> ~ In hash p -> Forall2 (replaced p v) cs cs' ->
  replaced p v (joined MARKER cs) (joined MARKER cs').
Proof.
  intros P NP F. induction F as [|c c' cs cs' H F IH]; [constructor|]. destruct F as [|d d' cs cs' H' F]; auto.
  rewrite !joined_cons. apply replaced_app; auto; [right; eexists; reflexivity|]. now apply replaced_marker.
Qed.
Lemma joined_single cs : Forall (fun c => ~ occurs [pc; pc] c) cs -> ~ occurs [pc; pc] (joined MARKER cs).
Proof.
  intros F. induction F as [|c cs H F IH]; [now intros ([|] & ? & ?)|]. destruct F as [|d cs H' F]; auto. rewrite joined_cons.
  assert (M : ~ occurs [pc; pc] (MARKER ++ joined MARKER (d :: cs))).
  { intros O. cbn -[joined] in O. repeat (apply occurs2_cons in O as [[X _]|O]; [discriminate|]). now apply IH. }
  intros O. clear - H M O. induction c as [|x c IH].
  - now apply M.
  - cbn [app] in O. apply occurs2_cons in O as [[-> (y & E)]|O].
    + destruct c as [|z c]; [discriminate|]. injection E as -> _. apply H. now exists [], c.
    + apply IH; auto. intros X. apply H. now apply occurs_cons.
Qed.
Lemma escapes_joined text cs : escapes text cs -> text = joined PP cs /\ Forall (fun c => ~ occurs [pc; pc] c) cs /\ cs <> [] /\
  replaced PP MARKER text (joined MARKER cs).
Proof.
  induction 1 as [c H|c r cs H1 H2 H IH].
  - splits; auto; [easy|]. now apply replaced_id.
  - destruct IH as (-> & F & N & IH). destruct cs as [|d cs]; [congruence|]. splits; auto; [easy|]. rewrite joined_cons. clear F N H.
    assert (K : replaced PP MARKER (PP ++ joined PP (d :: cs)) (MARKER ++ joined MARKER (d :: cs))) by now apply rp_hit. revert K.
    change (of_string "%%") with [pc; pc] in *. change PP with [pc; pc] in *. change (of_string "%") with [pc] in *.
    generalize (MARKER ++ joined MARKER (d :: cs)). intros u K. clear IH. induction c as [|x c IH]; auto. cbn [app]. apply rp_miss.
    + intros y E. cbn in E. injection E as -> E. destruct c as [|z c]; [now apply (H2 [])|]. injection E as -> _. apply H1. now exists [], c.
    + apply IH; [intros O; apply H1; now apply occurs_cons|]. intros t ->. now apply (H2 (x :: t)).
Qed.
Lemma unescape cs : Forall (fun c => ~ In hash c) cs -> cs <> [] -> replaced MARKER (of_string "%") (joined MARKER cs) (joined (of_string "%") cs).
Proof.
  intros F _. induction F as [|c cs H F IH]; [constructor|]. assert (K : forall r u, replaced MARKER (of_string "%") r u -> replaced MARKER (of_string "%") (c ++ r) (c ++ u)).
  { clear - H. intros r u K. induction c as [|x c IH]; auto. cbn [app]. apply rp_miss; [|apply IH; cbn in H; tauto]. intros y E. cbn in E. injection E as -> _. apply H. now left. }
  destruct F as [|d cs H' F].
  - cbn [joined]. pose proof (K [] [] (rp_nil _ _)) as X. now rewrite app_nil_r in X.
  - rewrite !joined_cons. apply K. now apply rp_hit.
Qed.
Lemma escapes_total : forall text, exists cs, escapes text cs.
Proof.
  assert (G : forall n text, length text <= n -> exists cs, escapes text cs).
  { induction n as [|n IH]; intros [|a s] L; cbn in L; try lia; try (exists [[]]; constructor; intros ([|] & ? & ?); discriminate).
    destruct (strip_prefix PP (a :: s)) as [r|] eqn:E.
    - apply strip_prefix_spec in E. destruct (IH r) as (cs & H). { assert (X : length (a :: s) = length (PP ++ r)) by now rewrite E. cbn in X. lia. }
      rewrite E. exists ([] :: cs). apply (es_more [] r cs); auto; [intros ([|] & ? & ?); discriminate|]. intros [|]; discriminate.
    - destruct (IH s) as (cs & H); [lia|]. assert (N : forall r, a :: s <> PP ++ r) by (intros r X; apply strip_prefix_spec in X; congruence).
      destruct H as [c H|c r cs H1 H2 H].
      + exists [a :: c]. constructor. intros O. apply occurs2_cons in O as [[-> (y & ->)]|O]; auto. now apply (N y).
      + exists ((a :: c) :: cs). change (a :: c ++ of_string "%%" ++ r) with ((a :: c) ++ of_string "%%" ++ r). constructor; auto.
        * intros O. apply occurs2_cons in O as [[-> (y & ->)]|O]; auto. now apply (N (y ++ of_string "%%" ++ r)).
        * intros t X. destruct t as [|b t]; [|injection X as -> ->; now apply (H2 t)]. injection X as -> ->. now apply (N (of_string "%" ++ r)). }
  intros text. now apply (G (length text)).
Qed.

Section Sub34.
Context (rx : str -> str -> str -> option (option str)).
(** C34: a text that has no doubled percent sign and that no pattern changes is left as it is. *)
Theorem C34_unchanged s text : ~ occurs (of_string "%%") text -> (forall k v, visible s k v -> rx k v text = Some None) -> tidy s ->
  apply rx s text = inl text.
Proof.
  intros N H T. unfold apply. assert (G : forall l es, (forall k v, In (k, v) l -> rx k v text = Some None) -> apply_all rx l text es false = inl (text, false)).
  { induction l as [|[p r] l IH]; intros es HL; cbn [apply_all]; auto. assert (X : contains PP text = false) by (apply not_true_iff_false; now rewrite contains_spec). rewrite X.
    assert (Y : rx p r text = Some None) by (apply HL; now left). destruct es; rewrite Y; apply IH; intros k v I; apply HL; now right. }
  rewrite G; auto. intros k v I. apply H. now apply siter_seen.
Qed.
Lemma in_order_siter s : tidy s -> in_order s (siter s).
Proof.
  intros T. unfold in_order. exists (map (fun kv => match lookup (fst kv) (own s) with Some v => v | None => snd kv end) (parent s)). splits.
  - now rewrite map_length.
  - unfold siter. f_equal. induction (parent s) as [|[k v] m IH]; auto. cbn [map combine fst snd]. now rewrite <- IH.
  - apply Forall_forall. intros [k v] I. now apply siter_seen.
Qed.
Lemma plain_step p v s : p <> [] -> plain_text rx p v -> forall t, replaced p v s t ->
  rx p v s = Some (Some t) \/ rx p v s = Some None /\ t = s.
Proof.
  intros P H t R. destruct (H s) as [(O & t0 & E & R0)|(O & E)].
  - left. now rewrite (replaced_fun p v s t P R t0 R0).
  - right. split; auto. apply (replaced_fun p v s t P R). now apply replaced_id.
Qed.
Definition sane (c : str) : Prop := ~ occurs [pc; pc] c /\ ~ In hash c.
Lemma chunk_step p v cs : harmless (p, v) -> Forall sane cs -> exists cs', Forall2 (replaced p v) cs cs' /\ Forall sane cs' /\
  replaced p v (joined MARKER cs) (joined MARKER cs').
Proof.
  intros H F. destruct H as [E|((q & P) & NP & NV & N2 & N3)]; cbn [fst snd] in *.
  - exists cs. assert (S1 : forall c, sane c -> replaced p v c c) by (intros c [O _]; subst p; now apply replaced_id). splits; auto.
    + clear E. induction F; constructor; auto.
    + subst p. apply replaced_id, joined_single. eapply Forall_impl; [|exact F]. now intros c [O _].
  - exists (map (replace_text p v) cs). assert (P' : exists q, p = pc :: q) by (exists q; exact P). assert (P0 : p <> []) by (destruct P' as (? & ->); discriminate).
    assert (F2 : Forall2 (replaced p v) cs (map (replace_text p v) cs)). { clear F. induction cs; constructor; auto. now apply replaced_replace. }
    assert (NP' : ~ In hash p) by (intros X; now apply NP, occurs1). assert (NV' : ~ In hash v) by (intros X; now apply NV, occurs1). splits; auto.
    + apply Forall_map. eapply Forall_impl; [|exact F]. intros c [O NH]. pose proof (replaced_replace p v c P0) as R. split; [exact (replaced_single p v c _ P' N2 N3 R O)|exact (replaced_nohash p v c _ NV' R NH)].
    + now apply replaced_joined.
Qed.
Lemma sane_noesc cs : Forall sane cs -> contains PP (joined MARKER cs) = false.
Proof. intros F. apply not_true_iff_false. rewrite contains_spec. apply joined_single. eapply Forall_impl; [|exact F]. now intros c [O _]. Qed.
Lemma apply_rest l : (forall p v, In (p, v) l -> plain_text rx p v /\ harmless (p, v)) -> forall cs es un, Forall sane cs ->
  exists cs', Forall2 (replaced_all l) cs cs' /\ Forall sane cs' /\ apply_all rx l (joined MARKER cs) es un = inl (joined MARKER cs', un) /\
  forall p v l1, l = (p, v) :: l1 -> forall es', (match rx p v (joined MARKER cs) with None => inr InvalidPattern | Some (Some b) => apply_all rx l1 b true un | Some None => apply_all rx l1 (joined MARKER cs) es' un end) = inl (joined MARKER cs', un).
Proof.
  induction l as [|[p v] l IH]; intros HL cs es un F.
  - exists cs. splits; auto; [|discriminate]. clear F. induction cs; constructor; auto. constructor.
  - destruct (HL p v) as [PT HM]; [now left|]. destruct (chunk_step p v cs HM F) as (cs1 & F1 & S1 & R1).
    assert (P0 : p <> []) by (destruct HM as [X|((q & X) & _)]; cbn in X; rewrite X; discriminate).
    assert (HL' : forall p0 v0, In (p0, v0) l -> plain_text rx p0 v0 /\ harmless (p0, v0)) by (intros; apply HL; now right).
    destruct (IH HL' cs1 true un S1) as (cs2 & F2 & S2 & E2 & _).
    assert (EQ : forall es', apply_all rx l (joined MARKER cs1) es' un = inl (joined MARKER cs2, un)).
    { intros es'. destruct (IH HL' cs1 es' un S1) as (cs3 & F3 & _ & E3 & _). rewrite E3. do 3 f_equal. clear - F2 F3 HL'. revert cs2 F2. induction F3 as [|c c3 cs cs3 R F IHF]; intros cs2 F2; inversion F2 as [|? c2 ? ? R2]; subst; auto. f_equal; auto.
      assert (PN : forall p v, In (p, v) l -> p <> []). { intros p v I. destruct (HL' p v I) as [_ [X|((q & X) & _)]]; cbn in X; rewrite X; discriminate. }
      clear - R R2 PN. revert c2 R2. induction R as [|p v l s t u A B IHR]; intros c2 R2; inversion R2 as [|? ? ? ? t' ? A' B']; subst; auto.
      rewrite <- (replaced_fun p v s t (PN p v (or_introl eq_refl)) A t' A') in B'. apply IHR; auto. intros p0 v0 I. apply (PN p0 v0). now right. }
    assert (J : forall es', (match rx p v (joined MARKER cs) with None => inr InvalidPattern | Some (Some b) => apply_all rx l b true un | Some None => apply_all rx l (joined MARKER cs) es' un end) = inl (joined MARKER cs2, un)).
    { intros es'. destruct (plain_step p v _ P0 PT _ R1) as [->|[-> E]]; [apply EQ|]. rewrite <- E. apply EQ. }
    exists cs2. splits; auto.
    + clear - F1 F2. revert cs2 F2. induction F1 as [|c c1 cs cs1 R F IHF]; intros cs2 F2; inversion F2; subst; constructor; [econstructor; eauto|auto].
    + cbn [apply_all]. rewrite (sane_noesc cs F). destruct es; [apply (J false)|apply (J false)].
    + intros p0 v0 l1 [= <- <- <-]. exact J.
Qed.
(** C34, for substitutions of plain text that cannot make percent signs meet, and texts without the
    marker's hash sign: the text between the escaped percent signs is rewritten on its own, one
    substitution after the other, and each escape stands for one percent sign. *)
Theorem C34_escape_partial s text cs : tidy s -> (exists k, seen s k) -> (forall k v, visible s k v -> plain_text rx k v /\ harmless (k, v)) ->
  ~ occurs (of_string "#") text -> escapes text cs ->
  exists l cs', in_order s l /\ Forall2 (replaced_all l) cs cs' /\ apply rx s text = inl (joined (of_string "%") cs').
Proof.
  intros T (k0 & SK) H NH E. exists (siter s). destruct (escapes_joined text cs E) as (ET & F & NE & R). assert (NH' : ~ In hash text) by (intros X; now apply NH, occurs1).
  assert (FS : Forall sane cs).
  { apply Forall_forall. intros c I. split; [now apply (proj1 (Forall_forall _ _) F)|]. intros X. apply NH'. rewrite ET. clear - I X. induction cs as [|d cs IH]; [easy|].
    destruct cs as [|e cs]; [destruct I as [->|[]]; auto|]. rewrite joined_cons. apply in_app_iff. destruct I as [->|I]; auto. right. apply in_app_iff. right. auto. }
  assert (HL : forall p v, In (p, v) (siter s) -> plain_text rx p v /\ harmless (p, v)) by (intros p v I; apply H; now apply siter_seen).
  destruct (seen_siter s k0 SK) as (v0 & I0). unfold apply.
  assert (G : exists cs' , Forall2 (replaced_all (siter s)) cs cs' /\ Forall sane cs' /\
    apply_all rx (siter s) text true false = inl (joined MARKER cs', contains PP text)).
  { destruct (siter s) as [|[p v] l] eqn:SI; [easy|]. destruct (contains PP text) eqn:C.
    - destruct (apply_rest ((p, v) :: l) HL cs true true FS) as (cs' & F' & S' & E' & J). exists cs'. splits; auto. cbn [apply_all]. rewrite C.
      rewrite (replaced_fun PP MARKER text _ ltac:(discriminate) (replaced_replace PP MARKER text ltac:(discriminate)) _ R). now apply (J p v l).
    - destruct E as [c N|c r cs N1 N2 E].
      + destruct (apply_rest ((p, v) :: l) HL [c] true false FS) as (cs' & F' & S' & E' & _). now exists cs'.
      + exfalso. assert (X : contains PP (c ++ of_string "%%" ++ r) = true) by (apply contains_spec; now exists c, r). congruence. }
  destruct G as (cs' & F' & S' & ->). exists cs'. splits; auto; [now apply in_order_siter|]. f_equal. destruct (contains PP text) eqn:C.
  - apply (replaced_fun MARKER (of_string "%") (joined MARKER cs') _ ltac:(discriminate) (replaced_replace MARKER (of_string "%") (joined MARKER cs') ltac:(discriminate))).
    apply unescape; [eapply Forall_impl; [|exact S']; now intros c [_ O]|]. destruct F'; congruence.
  - destruct E as [c N|c r cs N1 N2 E].
    + inversion F' as [|? c' ? ? ? F0]; subst. inversion F0; subst. reflexivity.
    + exfalso. assert (X : contains PP (c ++ of_string "%%" ++ r) = true) by (apply contains_spec; now exists c, r). congruence.
Qed.
End Sub34.

(** ** Concrete cases *)
Definition text_rx (p v s : str) : option (option str) := if contains p s then Some (Some (replace_text p v s)) else Some None.
Lemma text_rx_plain p v : p <> [] -> plain_text text_rx p v.
Proof.
  intros P s. unfold text_rx. pose proof (contains_spec p s) as C. destruct (contains p s).
  - left. split; [now apply C|]. eexists. split; [reflexivity|]. now apply replaced_replace.
  - right. split; auto. intros X. apply C in X. discriminate.
Qed.
(** C34 is false of a text that has the marker itself: it becomes a percent sign. *)
Theorem C34_marker_refuted : exists s text t, tidy s /\ (exists k, seen s k) /\ (forall k v, visible s k v -> plain_text text_rx k v /\ harmless (k, v)) /\
  escapes text [t; []] /\ ~ occurs (of_string "%") t /\ apply text_rx s text <> inl (joined (of_string "%") [t; []]).
Proof.
  exists (mkScoped [] [(of_string "%%", of_string "%")]), (of_string "#_MARKER_#%%"), (of_string "#_MARKER_#"). splits.
  - split; repeat constructor; easy.
  - exists (of_string "%%"), (of_string "%"). left. now left.
  - intros k v [[[= <- <-]|[]]|[_ []]]. split; [now apply text_rx_plain|now left].
  - apply (es_more (of_string "#_MARKER_#") [] [[]]).
    + rewrite <- contains_spec. vm_compute. discriminate.
    + intros t E. apply (f_equal (@rev N)) in E. rewrite rev_app_distr in E. vm_compute in E. discriminate.
    + constructor. intros ([|] & ? & ?); discriminate.
  - rewrite <- contains_spec. vm_compute. discriminate.
  - vm_compute. discriminate.
Qed.
(** C34 is false when there is no substitution at all: the doubled percent sign stays. *)
Theorem C34_no_substitutions_refuted rx : apply rx (mkScoped [] []) (of_string "%%") = inl (of_string "%%").
Proof. reflexivity. Qed.
(** C34 is false of a value with a percent sign at its end: it swallows the one that follows, which here
    begins another substitution. *)
Theorem C34_value_refuted : exists s, tidy s /\ visible s (of_string "%S") (of_string "100%") /\ visible s (of_string "%t") (of_string "tmp") /\
  apply text_rx s (of_string "%S%t") = inl (of_string "100%t").
Proof.
  exists (mkScoped [] [(of_string "%S", of_string "100%"); (of_string "%t", of_string "tmp")]). splits.
  - split; repeat constructor; cbn; intuition discriminate.
  - left. now left.
  - left. right. now left.
  - vm_compute. reflexivity.
Qed.
Definition ex_set : scoped := test_substitutions [] [] (of_string "a.c") (of_string "d") (of_string "a.tmp") (of_string "a").
Lemma not_occurs p s : contains p s = false -> ~ occurs p s.
Proof. intros H O. apply contains_spec in O. congruence. Qed.
Lemma not_last (s : str) : last s 0%N <> 37%N -> forall t, s <> t ++ of_string "%".
Proof. intros H t ->. apply H. apply last_last. Qed.
Example C34_hyp : tidy ex_set /\ (exists k, seen ex_set k) /\ (forall k v, visible ex_set k v -> plain_text text_rx k v /\ harmless (k, v)) /\
  ~ occurs (of_string "#") (of_string "cc %s -o %%s && run %t %%%s") /\
  escapes (of_string "cc %s -o %%s && run %t %%%s") [of_string "cc %s -o "; of_string "s && run %t "; of_string "%s"] /\
  apply text_rx ex_set (of_string "cc %s -o %%s && run %t %%%s") = inl (of_string "cc a.c -o %s && run a.tmp %a.c").
Proof.
  splits.
  - split; repeat constructor; cbn; intuition discriminate.
  - exists (of_string "%s"), (of_string "a.c"). left. now left.
  - intros k v [I|[_ []]]. vm_compute in I. split.
    + apply text_rx_plain. repeat destruct I as [[= <- _]|I]; try discriminate. destruct I.
    + repeat (destruct I as [[= <- <-]|I]; [right; splits; [eexists; reflexivity|apply not_occurs; reflexivity|apply not_occurs; reflexivity|apply not_occurs; reflexivity|apply not_last; discriminate]|]). destruct I as [[= <- <-]|[]]. now left.
  - apply not_occurs. reflexivity.
  - apply (es_more (of_string "cc %s -o ")); [apply not_occurs; reflexivity|apply not_last; discriminate|].
    apply (es_more (of_string "s && run %t ")); [apply not_occurs; reflexivity|apply not_last; discriminate|]. constructor. apply not_occurs. reflexivity.
  - vm_compute. reflexivity.
Qed.
Example C34_unchanged_hyp : apply text_rx ex_set (of_string "echo 100% done") = inl (of_string "echo 100% done").
Proof.
  apply C34_unchanged; [apply not_occurs; reflexivity| |apply C34_hyp]. intros k v [I|[_ []]]. vm_compute in I. repeat destruct I as [[= <- <-]|I]; try reflexivity. destruct I.
Qed.
Example C33_hyp :
  let s := mkScoped [(of_string "%{a}", of_string "1"); (of_string "x%{a}", of_string "2")] [] in
  tidy s /\ seen s (of_string "%{a}") /\ ambiguous s (of_string "%{a}") /\ ~ seen s (of_string "%{b}") /\ define (of_string "%{a}") [] true s = inr Conflicts /\
  (exists s', define (of_string "%{b}") [] false s = inl s') /\ define (of_string "x%{a}") [] false s = inr AlreadyExists /\ (exists s', define (of_string "x%{a}") [] true s = inl s') /\
  define (of_string "%{b}") [] true s = inr NotDefined.
Proof.
  cbv zeta. splits.
  - split; repeat constructor; cbn; intuition discriminate.
  - exists (of_string "1"). right. split; [easy|now left].
  - exists (of_string "x%{a}"). splits; [exists (of_string "2"); right; split; [easy|right; now left]|discriminate|now exists (of_string "x"), []].
  - intros (v & [[]|[_ [E|[E|[]]]]]); discriminate.
  - reflexivity.
  - eexists. vm_compute. reflexivity.
  - reflexivity.
  - eexists. vm_compute. reflexivity.
  - reflexivity.
Qed.
Example C33_scope_hyp : exists l' s', apply_commands text_rx [Run 1%nat (of_string "x %t"); Subst 2%nat (of_string "%x") (of_string "one") false; Run 3%nat (of_string "%x %t"); Subst 4%nat (of_string "%x") (of_string "two") true; Run 5%nat (of_string "%x")] ex_set
   = inl (l', s') /\ nth_error l' 2 = Some (Run 3%nat (of_string "one a.tmp")) /\ nth_error l' 4 = Some (Run 5%nat (of_string "two")).
Proof. do 2 eexists. splits; vm_compute; reflexivity. Qed.
Print Assumptions C33_define_partial.
Print Assumptions C33_conflict_refuted.
Print Assumptions C33_scope.
Print Assumptions C33_unusable_refuted.
Print Assumptions C34_unchanged.
Print Assumptions C34_escape_partial.
Print Assumptions C34_marker_refuted.
Print Assumptions C34_no_substitutions_refuted.
Print Assumptions C34_value_refuted.

(** ** C63: the substitutions every test has *)
Lemma visible_extend l : forall s, tidy s -> NoDup (keys l) -> tidy (sextend l s) /\
  forall k v, visible (sextend l s) k v <-> In (k, v) l \/ (forall w, ~ In (k, w) l) /\ visible s k v.
Proof.
  induction l as [|[k0 v0] l IH]; intros s T ND.
  - destruct s. cbn in *. split; auto. intros k v. split; [intros H; right; split; auto; intros ? []|intros [[]|[_ H]]; exact H].
  - cbn [map fst] in ND. inversion ND as [|? ? NI ND']; subst. change (sextend ((k0, v0) :: l) s) with (sextend l (sinsert k0 v0 s)).
    destruct (visible_insert s k0 v0 T) as (T1 & V1). destruct (IH (sinsert k0 v0 s) T1 ND') as (T2 & V2). split; auto. intros k v. rewrite V2, V1. split.
    + intros [I|[N [[-> ->]|[X Y]]]]; [left; now right|left; now left|right; split; auto]. intros w [[= -> _]|I]; [congruence|now apply (N w)].
    + intros [[[= <- <-]|I]|[N Y]]; [right; split; [|left; auto]|auto|].
      * intros w I. apply NI. change k0 with (fst (k0, w)). now apply in_map.
      * right. split; [intros w I; apply (N w); now right|]. right. split; auto. intros ->. apply (N v0). now left.
Qed.
(** Whatever the configuration and the format define, [%s], [%S], [%t], [%basename_t] and [%%] have the
    values of this test; any other key has the format's value, or else the configuration's. *)
Theorem C63_defaults config extra src dir tmp base k v : NoDup (keys config) -> NoDup (keys extra) ->
  let standard := [(of_string "%s", src); (of_string "%S", dir); (of_string "%t", tmp); (of_string "%basename_t", base); (of_string "%%", of_string "%")] in
  visible (test_substitutions config extra src dir tmp base) k v <->
  In (k, v) standard \/ (forall w, ~ In (k, w) standard) /\ (In (k, v) extra \/ (forall w, ~ In (k, w) extra) /\ In (k, v) config).
Proof.
  intros NC NE standard. unfold test_substitutions.
  assert (T0 : tidy (mkScoped config [])) by (split; [exact NC|constructor]).
  assert (V0 : forall k v, visible (mkScoped config []) k v <-> In (k, v) config).
  { intros k0 v0. unfold visible. cbn. split; [now intros [[]|[_ H]]|]. intros H. right. split; auto. }
  destruct (visible_extend extra _ T0 NE) as (T1 & V1).
  match goal with |- context[sextend ?l (sextend extra _)] => assert (ND : NoDup (keys l)) by (repeat constructor; cbn; intuition discriminate);
    destruct (visible_extend l _ T1 ND) as (T2 & V2) end.
  destruct (visible_insert _ (of_string "%%") (of_string "%") T2) as (_ & V3). rewrite V3, V2, V1, V0. unfold standard. cbn [In]. clear. split.
  - intros [[-> ->]|[N [I|[M H]]]]; [tauto|tauto|]. right. split; auto. intros w I. destruct (M w). repeat (destruct I as [I|I]; auto 6). inversion I; congruence.
  - intros [I|[N H]].
    + repeat (destruct I as [I|I]; [right; split; [inversion I; intros E; discriminate E|left; auto 6]|]). destruct I as [I|[]]. inversion I. auto.
    + right. split; [intros ->; apply (N (of_string "%")); tauto|]. right. split; auto. intros w I. apply (N w). tauto.
Qed.
(** A definition that is accepted has no effect when its name begins with the name of a substitution that
    is tried before it: here [%t] takes the head of [%tool]. *)
Theorem C33_shadowed_refuted : exists s s', tidy s /\ visible s (of_string "%t") (of_string "a.tmp") /\
  define (of_string "%tool") (of_string "cc") false s = inl s' /\ visible s' (of_string "%tool") (of_string "cc") /\
  apply text_rx s' (of_string "%tool") = inl (of_string "a.tmpool").
Proof.
  assert (T : tidy ex_set) by (split; repeat constructor; cbn; intuition discriminate). eexists ex_set, _. splits.
  - exact T.
  - left. vm_compute. auto.
  - vm_compute. reflexivity.
  - left. vm_compute. auto 10.
  - vm_compute. reflexivity.
Qed.
Example C63_hyp : let s := test_substitutions [(of_string "%s", of_string "bad"); (of_string "%x", of_string "1")] [(of_string "%x", of_string "2")] (of_string "a.c") (of_string "d") (of_string "a.tmp") (of_string "a") in
  visible s (of_string "%s") (of_string "a.c") /\ visible s (of_string "%x") (of_string "2") /\ ~ visible s (of_string "%x") (of_string "1").
Proof.
  cbv zeta. assert (NC : NoDup (keys [(of_string "%s", of_string "bad"); (of_string "%x", of_string "1")])) by (repeat constructor; cbn; intuition discriminate).
  assert (NE : NoDup (keys [(of_string "%x", of_string "2")])) by (repeat constructor; cbn; intuition discriminate). splits.
  - apply C63_defaults; auto. cbn. auto.
  - apply C63_defaults; auto. right. split; [cbn; intuition discriminate|]. left. now left.
  - intros H. apply C63_defaults in H; auto. cbn in H. intuition (try discriminate). eapply H1. now left.
Qed.
Print Assumptions C63_defaults.
Print Assumptions C33_shadowed_refuted.
