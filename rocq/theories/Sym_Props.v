(** C84: the symbol table. *)
From Coq Require Import String FinFun Sorted Permutation.
From Verif Require Import Base Text_Model Cursor_Model Map_Model Sym_Model.
Open Scope string_scope.
Open Scope list_scope.
Open Scope nat_scope.
Ltac splits := repeat match goal with |- _ /\ _ => split end.

(** * The specification *)
(** A symbol is made from the text [s]. *)
Definition makes (o : op) (s : str) : Prop := o = OIntern s \/ o = OStatic s.
(** In a history, the call number [k] makes a symbol of [s] and is answered by [x]. *)
Definition made (os : list op) (an : list answer) (k : nat) (s : str) (x : N) : Prop :=
  exists o, nth_error os k = Some o /\ makes o s /\ nth_error an k = Some (ASymbol x).
(** The symbols known from the start: different texts, numbered from 0 *)
Definition numbered (syms : list (N * str)) : Prop :=
  NoDup (map snd syms) /\ (N.of_nat (length syms) <= 4294967041)%N /\ forall p x, nth_error syms p = Some x -> fst x = N.of_nat p.

(** * Proofs *)
Definition good (i : interner) : Prop :=
  sorted (n_names i) /\ NoDup (n_strings i) /\ (N.of_nat (length (n_strings i)) <= 4294967041)%N /\
  forall s n, lookup s (n_names i) = Some n <-> nth_error (n_strings i) (N.to_nat n) = Some s.
Lemma nodup_snoc {A} (l : list A) x : NoDup l -> ~ In x l -> NoDup (l ++ [x]).
Proof. intros N I. apply NoDup_rev in N. rewrite <- (rev_involutive (l ++ [x])), rev_app_distr. apply NoDup_rev. cbn. constructor; auto. now rewrite <- in_rev. Qed.
Lemma nth_snoc {A} (l : list A) x k y : nth_error (l ++ [x]) k = Some y <-> nth_error l k = Some y \/ k = length l /\ y = x.
Proof.
  destruct (Nat.lt_ge_cases k (length l)) as [H|H].
  - rewrite nth_error_app1 by exact H. split; [now left|intros [K|[-> _]]; [exact K|lia]].
  - rewrite nth_error_app2 by exact H. rewrite (proj2 (nth_error_None l k) H). destruct (k - length l) as [|m] eqn:E; cbn.
    + split; [intros [= ->]; right; split; [lia|reflexivity]|intros [K|[_ ->]]; [discriminate|reflexivity]].
    + split; [intros K; destruct m; discriminate|intros [K|[-> _]]; [discriminate|lia]].
Qed.
Lemma good_add i s n : good i -> lookup s (n_names i) = None -> n = N.of_nat (length (n_strings i)) -> (n <= max_index)%N -> good (mkInterner (bt_insert s n (n_names i)) (n_strings i ++ [s])).
Proof.
  intros (So & Nd & Le & Lk) Ls -> Lm. assert (Ni : ~ In s (n_strings i)).
  { intros I. apply In_nth_error in I as (p & Hp). rewrite <- (Nat2N.id p) in Hp. apply Lk in Hp. congruence. }
  unfold good. cbn [n_names n_strings]. splits.
  - now apply bt_insert_sorted.
  - now apply nodup_snoc.
  - rewrite app_length. cbn [length]. unfold max_index in Lm. lia.
  - intros t m. rewrite lookup_bt_insert by exact So. rewrite nth_snoc. destruct (str_eqb s t) eqn:E.
    + apply str_eqb_eq in E. subst t. split; [intros [= <-]; right; split; [apply Nat2N.id|reflexivity]|]. intros [K|[K _]]; [now elim Ni; eapply nth_error_In; eauto|]. f_equal. lia.
    + apply str_eqb_neq in E. rewrite Lk. split; [now left|]. intros [K|[_ K]]; [exact K|congruence].
Qed.
Lemma as_u32_small n : (N.of_nat n <= 4294967041)%N -> as_u32 n = N.of_nat n.
Proof. intros H. unfold as_u32. apply N.mod_small. lia. Qed.
(** A call that makes a symbol *)
Lemma make_call i o s : good i -> makes o s ->
  (exists n, call i o = (i, ASymbol n) /\ lookup s (n_names i) = Some n) \/
  (lookup s (n_names i) = None /\ (exists i' n, call i o = (i', ASymbol n) /\ good i' /\ n_strings i' = n_strings i ++ [s] /\ lookup s (n_names i') = Some n)) \/
  (lookup s (n_names i) = None /\ call i o = (i, APanic) /\ N.of_nat (length (n_strings i)) = 4294967041%N).
Proof.
  intros G M. pose proof G as (So & Nd & Le & Lk).
  assert (C : call i o = match intern i s with Val (i', n) => (i', ASymbol n) | _ => (i, APanic) end) by (destruct M as [-> | ->]; reflexivity).
  rewrite C. unfold intern. destruct (lookup s (n_names i)) as [n|] eqn:E; [left; eauto|right]. rewrite as_u32_small by exact Le. unfold symbol_new.
  destruct (N.leb_spec (N.of_nat (length (n_strings i))) max_index) as [H|H]; cbn [bind].
  - left. split; [reflexivity|]. do 2 eexists. splits; [reflexivity|now apply good_add|reflexivity|]. cbn [n_names]. rewrite lookup_bt_insert by exact So. now rewrite str_eqb_refl.
  - right. splits; auto. unfold max_index in H. lia.
Qed.
Lemma call_good i o : good i -> good (fst (call i o)) /\ exists l, n_strings (fst (call i o)) = n_strings i ++ l.
Proof.
  intros G. assert (Same : good i /\ exists l, n_strings i = n_strings i ++ l) by (split; [exact G|exists []; now rewrite app_nil_r]).
  assert (M : forall s, makes o s -> good (fst (call i o)) /\ exists l, n_strings (fst (call i o)) = n_strings i ++ l).
  { intros s M. destruct (make_call i o s G M) as [(n & Ec & _)|[(_ & i' & n & Ec & G' & Es & _)|(_ & Ec & _)]]; rewrite Ec; cbn [fst]; auto. split; [exact G'|eauto]. }
  destruct o as [s|s|n|n m]; [apply (M s); now left|apply (M s); now right| |]; cbn [call]; [destruct (get i n); exact Same|destruct (get i n); [destruct (get i m)|..]; exact Same].
Qed.
(** the table after some calls *)
Fixpoint after (i : interner) (os : list op) : interner := match os with [] => i | o :: r => after (fst (call i o)) r end.
Lemma answers_nth os : forall i k o, nth_error os k = Some o -> nth_error (answers i os) k = Some (snd (call (after i (firstn k os)) o)).
Proof.
  induction os as [|o' os IH]; intros i k o H; [destruct k; discriminate|]. destruct k; cbn in *; [now injection H as ->|]. now apply IH.
Qed.
Lemma after_good os : forall i, good i -> good (after i os) /\ exists l, n_strings (after i os) = n_strings i ++ l.
Proof.
  induction os as [|o os IH]; intros i G; cbn [after]; [split; [exact G|exists []; now rewrite app_nil_r]|]. destruct (call_good i o G) as [G1 (l1 & E1)]. destruct (IH _ G1) as [G2 (l2 & E2)].
  split; [exact G2|]. exists (l1 ++ l2). now rewrite E2, E1, app_assoc.
Qed.
Lemma after_more os i k : after i os = after (after i (firstn k os)) (skipn k os).
Proof. revert i k. induction os as [|o os IH]; intros i [|k]; cbn; auto. Qed.
Lemma kept i os n s : good i -> nth_error (n_strings i) (N.to_nat n) = Some s -> nth_error (n_strings (after i os)) (N.to_nat n) = Some s.
Proof.
  intros G H. destruct (after_good os i G) as [_ (l & ->)]. rewrite nth_error_app1; [exact H|]. apply nth_error_Some. congruence.
Qed.
Lemma made_known i os k s x : good i -> made os (answers i os) k s x -> forall m, k < m -> nth_error (n_strings (after i (firstn m os))) (N.to_nat x) = Some s.
Proof.
  intros G (o & Ho & M & An) m Lm. rewrite (answers_nth os i k o Ho) in An. set (j := after i (firstn k os)) in *. assert (Gj : good j) by apply (after_good _ _ G).
  assert (K : nth_error (n_strings (fst (call j o))) (N.to_nat x) = Some s).
  { destruct (make_call j o s Gj M) as [(n & Ec & L)|[(_ & i' & n & Ec & G' & _ & L)|(_ & Ec & _)]]; rewrite Ec in *; cbn [fst snd] in *; try discriminate; injection An as ->; [now apply Gj|now apply G']. }
  rewrite (after_more (firstn m os) i (S k)). rewrite firstn_firstn. replace (Nat.min (S k) m) with (S k) by lia.
  apply kept; [apply after_good; exact G|]. enough (E : after i (firstn (S k) os) = fst (call j o)) by (rewrite E; exact K).
  unfold j. clear -Ho. revert i k Ho. induction os as [|o' os IH]; intros i k H; [destruct k; discriminate|]. destruct k; [injection H as ->; reflexivity|]. cbn [firstn after]. now apply IH.
Qed.
Lemma made_good i os k s x : good i -> made os (answers i os) k s x -> nth_error (n_strings (after i os)) (N.to_nat x) = Some s.
Proof.
  intros G M. pose proof M as (o & Ho & _ & _). assert (k < length os) by (apply nth_error_Some; congruence). pose proof (made_known i os k s x G M (length os) H) as K. now rewrite firstn_all in K.
Qed.
Lemma default_good syms : numbered syms -> good (interner_default syms) /\ n_strings (interner_default syms) = map snd syms.
Proof.
  unfold interner_default. enough (G : forall i, good i -> NoDup (n_strings i ++ map snd syms) -> (N.of_nat (length (n_strings i) + length syms) <= 4294967041)%N -> (forall p x, nth_error syms p = Some x -> fst x = N.of_nat (length (n_strings i) + p)) ->
    good (fold_left (fun i x => mkInterner (bt_insert (snd x) (fst x) (n_names i)) (n_strings i ++ [snd x])) syms i) /\
    n_strings (fold_left (fun i x => mkInterner (bt_insert (snd x) (fst x) (n_names i)) (n_strings i ++ [snd x])) syms i) = n_strings i ++ map snd syms).
  { intros (N1 & N2 & N3). apply (G (mkInterner [] [])); cbn [n_strings app length Nat.add]; auto. unfold good. cbn. splits; [exact I|constructor|lia|]. intros s n. split; [discriminate|]. destruct (N.to_nat n); discriminate. }
  induction syms as [|(n, v) syms IH]; intros i G Nd Le Nu; cbn [fold_left map]; [split; [exact G|now rewrite app_nil_r]|]. cbn [length map fst snd] in *.
  assert (G' : good (mkInterner (bt_insert v n (n_names i)) (n_strings i ++ [v]))).
  { pose proof (Nu 0 _ eq_refl) as E. cbn [fst] in E. rewrite Nat.add_0_r in E. apply good_add; auto; [|unfold max_index; lia].
    destruct (lookup v (n_names i)) as [m|] eqn:L; [|reflexivity]. apply G in L. apply nth_error_In in L. apply NoDup_remove_2 in Nd. elim Nd. apply in_app_iff. now left. }
  destruct (IH _ G') as [G2 E2]; cbn [n_strings] in *.
  - now rewrite <- app_assoc.
  - rewrite app_length. cbn [length]. lia.
  - intros p x H. rewrite app_length. cbn [length]. rewrite (Nu (S p) x H). lia.
  - split; [exact G2|]. rewrite E2, <- app_assoc. reflexivity.
Qed.

(** * The theorems *)
Section History.
Context (syms : list (N * str)) (Nu : numbered syms).
Notation start := (interner_default syms).
(** C84: in every history of calls, two calls that make symbols give the same one exactly if their texts are the same, *)
Theorem symbols_same : forall os j k s t x y, made os (answers start os) j s x -> made os (answers start os) k t y -> (x = y <-> s = t).
Proof.
  intros os j k s t x y Mj Mk. destruct (default_good syms Nu) as [G _]. pose proof (made_good start os j s x G Mj) as A. pose proof (made_good start os k t y G Mk) as B. split.
  - intros ->. congruence.
  - intros ->. pose proof (proj1 (after_good os start G)) as (_ & _ & _ & Lk). apply Lk in A. apply Lk in B. congruence.
Qed.
(** a symbol is read as the text it was made from at any later time, *)
Theorem symbols_read : forall os j k s x, made os (answers start os) j s x -> j < k -> nth_error os k = Some (ORead x) -> nth_error (answers start os) k = Some (AText s).
Proof.
  intros os j k s x M Lt Hk. destruct (default_good syms Nu) as [G _]. rewrite (answers_nth os start k _ Hk). cbn [call]. unfold get. now rewrite (made_known start os j s x G M k Lt).
Qed.
(** symbols compare as their texts do, *)
Theorem symbols_compared : forall os j k m s t x y, made os (answers start os) j s x -> made os (answers start os) k t y -> j < m -> k < m -> nth_error os m = Some (OCompare x y) ->
  nth_error (answers start os) m = Some (AOrder (str_cmp s t)).
Proof.
  intros os j k m s t x y Mj Mk Lj Lk Hm. destruct (default_good syms Nu) as [G _]. rewrite (answers_nth os start m _ Hm). cbn [call]. unfold get. now rewrite (made_known start os j s x G Mj m Lj), (made_known start os k t y G Mk m Lk).
Qed.
(** the symbols known from the start are those of their texts, *)
Theorem known_made : forall os k s x p n, nth_error syms p = Some (n, s) -> made os (answers start os) k s x -> x = n.
Proof.
  intros os k s x p n Hp M. destruct (default_good syms Nu) as [G E]. pose proof (made_good start os k s x G M) as A. pose proof (proj1 (after_good os start G)) as (_ & _ & _ & Lk).
  assert (B : nth_error (n_strings (after start os)) (N.to_nat n) = Some s).
  { apply kept; [exact G|]. rewrite E. pose proof (proj2 (proj2 Nu) p _ Hp) as X. cbn [fst] in X. subst n. rewrite Nat2N.id, nth_error_map, Hp. reflexivity. }
  apply Lk in A. apply Lk in B. congruence.
Qed.
Theorem known_read : forall os k p n s, nth_error syms p = Some (n, s) -> nth_error os k = Some (ORead n) -> nth_error (answers start os) k = Some (AText s).
Proof.
  intros os k p n s Hp Hk. destruct (default_good syms Nu) as [G E]. rewrite (answers_nth os start k _ Hk). cbn [call]. unfold get.
  assert (B : nth_error (n_strings (after start (firstn k os))) (N.to_nat n) = Some s); [|now rewrite B].
  apply kept; [exact G|]. rewrite E. pose proof (proj2 (proj2 Nu) p _ Hp) as X. cbn [fst] in X. subst n. rewrite Nat2N.id, nth_error_map, Hp. reflexivity.
Qed.
(** and a symbol is refused only when 2^32-255 other texts have symbols. *)
Theorem symbols_refused : forall os k o s, nth_error os k = Some o -> makes o s -> nth_error (answers start os) k = Some APanic ->
  exists texts, NoDup texts /\ N.of_nat (length texts) = 4294967041%N /\ ~ In s texts /\
    forall t, In t texts -> In t (map snd syms) \/ exists j x, j < k /\ made os (answers start os) j t x.
Proof.
  intros os k o s Ho M An. destruct (default_good syms Nu) as [G E]. rewrite (answers_nth os start k o Ho) in An. set (i := after start (firstn k os)) in *. assert (Gi : good i) by apply (after_good _ _ G). exists (n_strings i).
  destruct (make_call i o s Gi M) as [(n & Ec & _)|[(_ & i' & n & Ec & _)|(L & Ec & Ln)]]; rewrite Ec in An; try discriminate. splits; [apply Gi|exact Ln| |].
  - intros I. apply In_nth_error in I as (p & Hp). rewrite <- (Nat2N.id p) in Hp. apply Gi in Hp. congruence.
  - intros t I. assert (P : forall m, m <= k -> forall t, In t (n_strings (after start (firstn m os))) -> In t (map snd syms) \/ exists j x, j < m /\ made os (answers start os) j t x); [|now apply (P k)].
    clear -G E. induction m as [|m IH]; intros Lm t I; [left; cbn in I; now rewrite <- E|]. destruct (nth_error os m) as [o|] eqn:Ho.
    + assert (Af : after start (firstn (S m) os) = fst (call (after start (firstn m os)) o)).
      { generalize start. clear -Ho. revert m Ho. induction os as [|o' os IH]; intros k H i; [destruct k; discriminate|]. destruct k; [injection H as ->; reflexivity|]. cbn [firstn after]. now apply IH. }
      rewrite Af in I. set (j := after start (firstn m os)) in *. assert (Gj : good j) by apply (after_good _ _ G).
      assert (Old : In t (n_strings j) -> In t (map snd syms) \/ exists j x, j < S m /\ made os (answers start os) j t x).
      { intros Io. destruct (IH ltac:(lia) t Io) as [K|(a & x & La & K)]; [now left|right; exists a, x; split; [lia|exact K]]. }
      assert (New : forall s, makes o s -> In t (map snd syms) \/ exists j x, j < S m /\ made os (answers start os) j t x).
      { intros s M. destruct (make_call j o s Gj M) as [(n & Ec & _)|[(_ & i' & n & Ec & _ & Es & _)|(_ & Ec & _)]]; rewrite Ec in I; cbn [fst] in I; auto. rewrite Es in I. apply in_app_iff in I as [I|[<-|[]]]; auto.
        right. exists m, n. split; [lia|]. exists o. splits; auto. rewrite (answers_nth os start m o Ho). fold j. now rewrite Ec. }
      destruct o as [s|s|n|n n']; [apply (New s); now left|apply (New s); now right| |]; apply Old; cbn [call] in I; [now destruct (get j n)|destruct (get j n); [destruct (get j n')|..]; exact I].
    + apply nth_error_None in Ho. rewrite firstn_all2 in I by lia. rewrite <- (firstn_all2 (n := m) os) in I by lia. destruct (IH ltac:(lia) t I) as [K|(a & x & La & K)]; [now left|right; exists a, x; split; [lia|exact K]].
Qed.
End History.

(** * The numbering of build.rs *)
Lemma skip_spec fuel res : forall n, exists k, skip fuel res n = (n + N.of_nat k)%N /\ k <= fuel /\ (forall q, (n <= q < n + N.of_nat k)%N -> In q res) /\ (k < fuel -> ~ In (n + N.of_nat k)%N res).
Proof.
  induction fuel as [|f IH]; intros n; cbn [skip]; [exists 0; splits; lia|]. destruct (existsb (N.eqb n) res) eqn:E.
  - apply existsb_exists in E as (m & I & Em). apply N.eqb_eq in Em. subst m. destruct (IH (n + 1)%N) as (k & Ek & Lk & A & B). exists (S k). splits; [lia|lia| |].
    + intros q Hq. destruct (N.eq_dec q n) as [->|]; [exact I|]. apply A. lia.
    + intros L. replace (n + N.of_nat (S k))%N with (n + 1 + N.of_nat k)%N by lia. apply B. lia.
  - exists 0. splits; [lia|lia|lia|]. intros _ I. replace (n + N.of_nat 0)%N with n in I by lia. enough (existsb (N.eqb n) res = true) by congruence. apply existsb_exists. exists n. split; [exact I|apply N.eqb_refl].
Qed.
Lemma run_length res n k : (forall q, (n <= q < n + N.of_nat k)%N -> In q res) -> k <= length res.
Proof.
  intros H. assert (L : length (map (fun j => (n + N.of_nat j)%N) (seq 0 k)) <= length res).
  { apply NoDup_incl_length.
    - apply Injective_map_NoDup; [intros a b; lia|apply seq_NoDup].
    - intros q I. apply in_map_iff in I as (j & <- & I). apply in_seq in I. apply H. lia. }
  now rewrite map_length, seq_length in L.
Qed.
Lemma declared_in l n : In n (declared l) <-> exists d, In d l /\ y_id d = Some n.
Proof.
  unfold declared. rewrite in_flat_map. split; intros (d & I & H); exists d; (split; [exact I|]); [|rewrite H; now left]. destruct (y_id d); [destruct H as [->|[]]; reflexivity|destruct H].
Qed.
(** Every number that is asked for is the position of its symbol. *)
Definition in_place (l : list decl) : Prop := forall p d n, nth_error l p = Some d -> y_id d = Some n -> n = N.of_nat p.
Lemma assign_values res l : forall next, map snd (assign res next l) = map y_value l.
Proof. induction l as [|d l IH]; intros next; cbn [assign map]; [reflexivity|]. destruct (y_id d); cbn [map snd]; now rewrite IH. Qed.
Lemma assign_numbers res l : forall p next,
  (forall q d, nth_error l q = Some d -> match y_id d with Some n => n = N.of_nat (p + q) /\ In n res | None => ~ In (N.of_nat (p + q)) res end) ->
  (forall q, (next <= q < N.of_nat p)%N \/ (N.of_nat p <= q < next)%N -> In q res) ->
  forall k x, nth_error (assign res next l) k = Some x -> fst x = N.of_nat (p + k).
Proof.
  induction l as [|d l IH]; intros p next H R k x Hk; [destruct k; discriminate|]. cbn [assign] in Hk.
  destruct (skip_spec (length res) res next) as (m & Em & Lm & A & B). rewrite Em in Hk. pose proof (H 0 d eq_refl) as H0. rewrite Nat.add_0_r in H0.
  assert (Hs : forall q d, nth_error l q = Some d -> match y_id d with Some n => n = N.of_nat (S p + q) /\ In n res | None => ~ In (N.of_nat (S p + q)) res end).
  { intros q d' Hq. specialize (H (S q) d' Hq). now replace (p + S q) with (S p + q) in H by lia. }
  destruct (y_id d) as [n|] eqn:Ed.
  - destruct H0 as [-> I]. destruct k; [injection Hk as <-; cbn; lia|]. cbn [nth_error] in Hk. replace (p + S k) with (S p + k) by lia. eapply IH; [exact Hs| |exact Hk].
    intros q Q. destruct (N.eq_dec q (N.of_nat p)) as [->|]; [exact I|]. destruct (N.lt_ge_cases q (next + N.of_nat m)) as [L|L].
    + destruct (N.lt_ge_cases q next) as [L'|L']; [apply R; lia|apply A; lia].
    + apply R. lia.
  - assert (Ln : (next <= N.of_nat p)%N). { destruct (N.le_gt_cases next (N.of_nat p)) as [L|L]; [exact L|]. elim H0. apply R. lia. }
    assert (Ep : (next + N.of_nat m)%N = N.of_nat p).
    { destruct (N.lt_total (next + N.of_nat m) (N.of_nat p)) as [L|[L|L]]; [|exact L|].
      - assert (Lr : N.to_nat (N.of_nat p - next) <= length res). { apply (run_length res next). intros q Q. apply R. lia. } elim (B ltac:(lia)). apply R. lia.
      - elim H0. apply A. lia. }
    rewrite Ep in Hk. destruct k; [injection Hk as <-; cbn; lia|]. cbn [nth_error] in Hk. replace (p + S k) with (S p + k) by lia. eapply IH; [exact Hs| |exact Hk]. intros q Q. lia.
Qed.
Lemma places_differ l : forall p, (forall q d n, nth_error l q = Some d -> y_id d = Some n -> n = N.of_nat (p + q)) -> no_repeats (declared l) = true.
Proof.
  induction l as [|d l IH]; intros p H; [reflexivity|]. assert (Hs : forall q d n, nth_error l q = Some d -> y_id d = Some n -> n = N.of_nat (S p + q)).
  { intros q d' n Hq E. rewrite (H (S q) d' n Hq E). lia. }
  specialize (IH (S p) Hs). unfold declared in *. cbn [flat_map]. destruct (y_id d) as [n|] eqn:E; [|exact IH]. cbn [app no_repeats]. rewrite IH, andb_true_r. apply negb_true_iff.
  destruct (existsb (N.eqb n) _) eqn:X; [|reflexivity]. apply existsb_exists in X as (m & I & Em). apply N.eqb_eq in Em. subst m. fold (declared l) in I. apply declared_in in I as (d' & I & E'). apply In_nth_error in I as (q & Hq).
  rewrite (H 0 d n eq_refl E) in E'. specialize (Hs q d' _ Hq E'). lia.
Qed.
(** The numbering is as it must be for every set of declarations in which the values differ and the numbers asked for are the positions
    of their symbols, *)
Theorem build_numbered : forall secs l, sections_of secs = Val l -> NoDup (map y_value l) -> in_place l -> (N.of_nat (length l) <= 4294967041)%N -> exists syms, known_symbols secs = Val syms /\ map snd syms = map y_value l /\ numbered syms.
Proof.
  intros secs l Hl Nd Ip Le. exists (assign (declared l) 0 l). unfold known_symbols. rewrite Hl. cbn [bind]. rewrite (places_differ l 0) by (intros q d n Hq E; now apply (Ip q d)).
  pose proof (assign_values (declared l) l 0) as V. splits; [reflexivity|exact V|]. unfold numbered. splits.
  - now rewrite V.
  - rewrite <- (map_length snd), V, map_length. exact Le.
  - intros p x Hp. apply (assign_numbers (declared l) l 0 0 ) with (k := p); [| lia |exact Hp]. intros q d Hq. destruct (y_id d) as [n|] eqn:E.
    + split; [now apply (Ip q d)|]. apply declared_in. exists d. split; [eapply nth_error_In; eauto|exact E].
    + intros I. apply declared_in in I as (d' & I & E'). apply In_nth_error in I as (q' & Hq'). pose proof (Ip q' d' _ Hq' E'). assert (q = q') by lia. congruence.
Qed.

(** * The order of a section *)
Lemma decl_gt a b : decl_cmp a b = Gt -> decl_cmp b a = Lt.
Proof.
  unfold decl_cmp. destruct (str_eqb (y_value a) (y_value b)) eqn:E; [discriminate|]. apply str_eqb_neq in E. rewrite (proj2 (str_eqb_neq (y_value b) (y_value a))) by congruence.
  destruct (y_id a), (y_id b); try discriminate; auto.
  - intros H. now rewrite N.compare_antisym, H.
  - intros H. now rewrite str_cmp_anti, H.
Qed.
Lemma decl_trans a b c : y_value a <> y_value c -> decl_cmp a b = Lt -> decl_cmp b c = Lt -> decl_cmp a c = Lt.
Proof.
  unfold decl_cmp. intros V. rewrite (proj2 (str_eqb_neq (y_value a) (y_value c)) V). destruct (str_eqb (y_value a) (y_value b)); [discriminate|]. destruct (str_eqb (y_value b) (y_value c)); [discriminate|].
  destruct (y_id a), (y_id b), (y_id c); try discriminate; auto.
  - rewrite !N.compare_lt_iff. apply N.lt_trans.
  - intros H1 H2. eapply str_cmp_trans; eauto.
Qed.
Definition before (a b : decl) : Prop := decl_cmp a b = Lt.
(** two declarations of different texts that do not ask for the same number *)
Definition apart (a b : decl) : Prop := y_value a <> y_value b /\ forall n, ~ (y_id a = Some n /\ y_id b = Some n).
Lemma apart_cmp a b : apart a b -> decl_cmp a b <> Eq.
Proof.
  intros [V I]. unfold decl_cmp. rewrite (proj2 (str_eqb_neq _ _) V). destruct (y_id a) as [n|], (y_id b) as [m|]; try discriminate.
  - intros H. apply N.compare_eq in H. subst m. now apply (I n).
  - intros H. apply str_cmp_eq in H. now elim V.
Qed.
Lemma set_insert_sorted d l : StronglySorted before l -> (forall x, In x l -> apart d x) -> exists l', set_insert d l = Val l' /\ Permutation (d :: l) l' /\ StronglySorted before l'.
Proof.
  induction l as [|x l IH]; intros So Ap; cbn [set_insert].
  - exists [d]. splits; [reflexivity|constructor; constructor|repeat constructor].
  - apply StronglySorted_inv in So as [So Fx]. pose proof (Ap x (or_introl eq_refl)) as Ax. pose proof (apart_cmp d x Ax) as Ne. destruct (decl_cmp d x) eqn:C; [now elim Ne| |].
    + exists (d :: x :: l). splits; [reflexivity|apply Permutation_refl|]. constructor; [now constructor|]. constructor; [exact C|]. rewrite Forall_forall in *. intros y Iy. apply (decl_trans d x y); [apply (Ap y); now right|exact C|now apply Fx].
    + destruct (IH So) as (l' & E & P & So'); [intros y Iy; apply Ap; now right|]. rewrite E. cbn [bind]. exists (x :: l'). splits; [reflexivity| |].
      * eapply perm_trans; [apply perm_swap|now constructor].
      * constructor; [exact So'|]. rewrite Forall_forall in *. intros y Iy. apply (Permutation_in _ (Permutation_sym P)) in Iy as [<-|Iy]; [now apply decl_gt|now apply Fx].
Qed.
Lemma section_sorted ds : forall acc, StronglySorted before acc -> ForallOrdPairs apart ds -> (forall x d, In x acc -> In d ds -> apart d x) ->
  exists l, section_of ds acc = Val l /\ Permutation (acc ++ ds) l /\ StronglySorted before l.
Proof.
  induction ds as [|d ds IH]; intros acc So Fo Ap; cbn [section_of].
  - exists acc. rewrite app_nil_r. now splits.
  - inversion Fo as [|? ? Fd Fo']; subst. destruct (set_insert_sorted d acc So) as (acc' & E & P & So'); [intros x I; apply Ap; [exact I|now left]|]. rewrite E. cbn [bind].
    destruct (IH acc' So' Fo') as (l & El & Pl & Sl).
    + intros x d' Ix Id. apply (Permutation_in _ (Permutation_sym P)) in Ix as [<-|Ix]; [|apply Ap; [exact Ix|now right]]. rewrite Forall_forall in Fd. specialize (Fd _ Id). destruct Fd as [A B]. split; [congruence|]. intros n [U V]. now apply (B n).
    + exists l. splits; [exact El| |exact Sl]. eapply perm_trans; [|exact Pl]. eapply perm_trans; [symmetry; apply Permutation_middle|]. change (d :: acc ++ ds) with ((d :: acc) ++ ds). now apply Permutation_app_tail.
Qed.
Lemma within_length (l : list N) a b : NoDup l -> (forall n, In n l -> (a <= n < b)%N) -> length l <= N.to_nat (b - a).
Proof.
  intros Nd H. transitivity (length (map (fun j => (a + N.of_nat j)%N) (seq 0 (N.to_nat (b - a))))); [|rewrite map_length, seq_length; lia]. apply NoDup_incl_length; [exact Nd|].
  intros n I. apply H in I. apply in_map_iff. exists (N.to_nat (n - a)). split; [lia|]. apply in_seq. lia.
Qed.
Lemma sorted_places l : StronglySorted before l -> NoDup (declared l) -> forall p, (forall n, In n (declared l) -> (N.of_nat p <= n < N.of_nat (p + length (declared l)))%N) ->
  forall q d n, nth_error l q = Some d -> y_id d = Some n -> n = N.of_nat (p + q).
Proof.
  induction 1 as [|d l So IH Fd]; intros Nd p R q e n Hq Hn; [destruct q; discriminate|]. rewrite Forall_forall in Fd. destruct (y_id d) as [k|] eqn:Ed.
  - assert (De : declared (d :: l) = k :: declared l) by (unfold declared; cbn [flat_map]; now rewrite Ed). rewrite De in *. inversion Nd as [|? ? Ni Nd']; subst. cbn [length] in R.
    assert (Up : forall m, In m (declared l) -> (k < m)%N).
    { intros m I. apply declared_in in I as (d' & I & E'). specialize (Fd _ I). unfold before, decl_cmp in Fd. rewrite Ed, E' in Fd. destruct (str_eqb (y_value d) (y_value d')); [discriminate|]. now apply N.compare_lt_iff. }
    assert (Ek : k = N.of_nat p).
    { pose proof (R k (or_introl eq_refl)) as Rk. pose proof (within_length (declared l) (k + 1) (N.of_nat (p + S (length (declared l)))) Nd') as W.
      assert (length (declared l) <= N.to_nat (N.of_nat (p + S (length (declared l))) - (k + 1))) by (apply W; intros m I; specialize (Up m I); specialize (R m (or_intror I)); lia). lia. }
    destruct q as [|q]; cbn [nth_error] in Hq; [injection Hq as <-; rewrite Ed in Hn; injection Hn as <-; lia|]. replace (p + S q) with (S p + q) by lia. eapply IH; eauto.
    intros m I. specialize (Up m I). specialize (R m (or_intror I)). lia.
  - destruct q as [|q]; cbn [nth_error] in Hq; [injection Hq as <-; congruence|]. apply nth_error_In in Hq. specialize (Fd _ Hq). unfold before, decl_cmp in Fd. rewrite Ed, Hn in Fd. destruct (str_eqb _ _); discriminate.
Qed.
(** which it is in a section of different texts that asks for the numbers from 0 up to some other, in any order and anywhere in the
    section: then every symbol has the number it asks for, and the others have the numbers that follow. *)
(** If no declaration asks for a number, a text that is declared twice in a section makes the build fail. *)
Theorem declared_twice_partial : forall ds, (forall d, In d ds -> y_id d = None) -> ~ NoDup (map y_value ds) -> known_symbols [ds] = Panic.
Proof.
  intros ds Nn R. unfold known_symbols. cbn [sections_of]. assert (P : section_of ds [] = Panic); [|now rewrite P].
  enough (G : forall ds acc, (forall d, In d (acc ++ ds) -> y_id d = None) -> StronglySorted before acc -> NoDup (map y_value acc) -> ~ NoDup (map y_value (acc ++ ds)) -> section_of ds acc = Panic)
    by (apply G; [exact Nn|constructor|constructor|exact R]).
  clear. induction ds as [|d ds IH]; intros acc Nn So Nd R; [rewrite app_nil_r in R; contradiction|]. cbn [section_of].
  destruct (in_dec (list_eq_dec N.eq_dec) (y_value d) (map y_value acc)) as [I|I].
  - assert (E : set_insert d acc = Panic); [|now rewrite E]. assert (Nd' : forall x, In x acc -> y_id x = None) by (intros x J; apply Nn, in_or_app; now left).
    assert (Id : y_id d = None) by (apply Nn, in_or_app; right; now left). clear - I So Nd' Id. induction So as [|x l So IH F]; [destruct I|]. cbn [set_insert].
    destruct (decl_cmp d x) eqn:C; [reflexivity| |].
    + exfalso. cbn [map] in I. destruct I as [I|I]; [unfold decl_cmp in C; rewrite I, str_eqb_refl in C; discriminate|]. apply in_map_iff in I as (y & V & I). rewrite Forall_forall in F. specialize (F y I).
      assert (T : decl_cmp x d = Lt). { unfold before, decl_cmp in F |- *. rewrite <- V. rewrite (Nd' x), (Nd' y) in F by (cbn; auto). rewrite (Nd' x), Id by (cbn; auto). exact F. }
      clear - C T Nd' Id. unfold decl_cmp in C, T. rewrite (Nd' x), Id in C, T by (cbn; auto). destruct (str_eqb (y_value d) (y_value x)); [discriminate|]. destruct (str_eqb (y_value x) (y_value d)); [discriminate|].
      rewrite str_cmp_anti, C in T. discriminate.
    + cbn [map] in I. destruct I as [I|I]; [unfold decl_cmp in C; rewrite I, str_eqb_refl in C; discriminate|]. rewrite IH; [reflexivity|exact I|intros y J; apply Nd'; now right].
  - destruct (set_insert_sorted d acc So) as (acc' & E & P & So').
    { intros x J. split; [intros V; apply I; rewrite V; now apply in_map|]. intros n [A _]. rewrite Nn in A; [discriminate|]. apply in_or_app; right; now left. }
    rewrite E. cbn [bind]. assert (Q : Permutation (acc' ++ ds) (acc ++ d :: ds)).
    { etransitivity; [apply Permutation_app_tail; symmetry; exact P|]. cbn. apply Permutation_middle. }
    apply IH.
    + intros e J. apply Nn. eapply Permutation_in; [exact Q|exact J].
    + exact So'.
    + apply (Permutation_NoDup (Permutation_map y_value P)). cbn. now constructor.
    + intros X. apply R. eapply Permutation_NoDup; [apply Permutation_map; exact Q|exact X].
Qed.
Print Assumptions declared_twice_partial.
Theorem declared_numbered : forall ds, NoDup (map y_value ds) -> NoDup (declared ds) -> (forall n, In n (declared ds) -> (n < N.of_nat (length (declared ds)))%N) -> (N.of_nat (length ds) <= 4294967041)%N ->
  exists syms, known_symbols [ds] = Val syms /\ numbered syms /\ length syms = length ds /\ forall d, In d ds -> exists n, In (n, y_value d) syms /\ match y_id d with Some k => n = k | None => (N.of_nat (length (declared ds)) <= n)%N end.
Proof.
  intros ds Nv Nn R Le. assert (Fo : ForallOrdPairs apart ds).
  { clear R Le. induction ds as [|d ds IH]; constructor; cbn [map] in Nv.
    - rewrite Forall_forall. intros e I. inversion Nv as [|? ? Ni _]; subst. split; [intros E; elim Ni; rewrite E; now apply in_map|]. intros n [E1 E2]. unfold declared in Nn. cbn [flat_map] in Nn. rewrite E1 in Nn. cbn [app] in Nn. inversion Nn as [|? ? Nj _]; subst. elim Nj. apply declared_in. eauto.
    - inversion Nv; subst. apply IH; [assumption|]. unfold declared in *. cbn [flat_map] in Nn. destruct (y_id d); [now inversion Nn|exact Nn]. }
  destruct (section_sorted ds [] (SSorted_nil _) Fo) as (l & El & P & So); [intros x d []|]. cbn [app] in P.
  assert (Pd : Permutation (declared ds) (declared l)) by (unfold declared; now apply Permutation_flat_map).
  assert (Ip : in_place l).
  { intros p d n Hp Hn. apply (sorted_places l So) with (p := 0) (q := p) (d := d); auto; [eapply Permutation_NoDup; eauto|]. intros m I. rewrite <- (Permutation_length Pd). apply (Permutation_in _ (Permutation_sym Pd)) in I. specialize (R m I). cbn. lia. }
  assert (Sec : sections_of [ds] = Val l) by (cbn [sections_of]; rewrite El; cbn; now rewrite app_nil_r).
  assert (Nl : NoDup (map y_value l)) by (eapply Permutation_NoDup; [apply Permutation_map, P|exact Nv]).
  destruct (build_numbered [ds] l Sec Nl Ip) as (syms & Ks & V & Nu); [rewrite <- (Permutation_length P); exact Le|]. exists syms. assert (Ls : length syms = length l) by (rewrite <- (map_length snd), V; apply map_length). splits; [exact Ks|exact Nu|now rewrite Ls, (Permutation_length P)|].
  intros d Id. apply (Permutation_in _ P) in Id. apply In_nth_error in Id as (q & Hq). pose proof (f_equal (fun v => nth_error v q) V) as Vq. cbn beta in Vq. rewrite !nth_error_map, Hq in Vq. destruct (nth_error syms q) as [(n, v)|] eqn:Es; [|discriminate]. cbn in Vq. injection Vq as ->.
  exists n. split; [eapply nth_error_In; eauto|]. pose proof (proj2 (proj2 Nu) q _ Es) as En. cbn [fst] in En. subst n. destruct (y_id d) as [k|] eqn:Ed; [symmetry; now apply (Ip q d)|].
  (* every number asked for is at a smaller place *)
  assert (Lq : length (declared l) <= q); [|rewrite (Permutation_length Pd); lia]. clear -So Hq Ed. revert q Hq. induction So as [|e l So IH Fe]; intros q Hq; [destruct q; discriminate|]. unfold declared in *. cbn [flat_map]. destruct q as [|q]; cbn [nth_error] in Hq.
  - injection Hq as ->. rewrite Ed. cbn [app]. enough (Z : flat_map (fun d => match y_id d with Some n => [n] | None => [] end) l = []) by (rewrite Z; auto). clear IH So. induction Fe as [|e l He Fe IH]; [reflexivity|]. cbn [flat_map]. rewrite IH. unfold before, decl_cmp in He. rewrite Ed in He. destruct (y_id e); [destruct (str_eqb _ _); discriminate|reflexivity].
  - specialize (IH q Hq). rewrite app_length. destruct (y_id e); cbn [length]; lia.
Qed.
(** It is so of the symbols of litcheck, too: *)
Theorem litcheck_numbered : exists syms, known_symbols symbols_toml = Val syms /\ numbered syms /\
  map snd syms = map of_string ["false"; "true"; ""; "LINE"; "add"; "div"; "max"; "min"; "mul"; "sub"; "CHECK"; "COM"; "RUN"].
Proof.
  destruct (build_numbered symbols_toml _ eq_refl) as (syms & E & V & Nu).
  - repeat (constructor; [vm_compute; intuition discriminate|]). constructor.
  - intros p d n. do 13 (destruct p; [cbn; intros [= <-]; cbn; (discriminate || now intros [= <-])|]). destruct p; discriminate.
  - vm_compute. discriminate.
  - exists syms. splits; [exact E|exact Nu|]. rewrite V. reflexivity.
Qed.
(** Nothing checks it: a number out of place is accepted, and the symbol then reads as another text, *)
Theorem number_refuted : ~ (forall secs syms n s, known_symbols secs = Val syms -> In (n, s) syms -> answers (interner_default syms) [ORead n] = [AText s]).
Proof.
  intros H. specialize (H [[mkDecl (Some 1%N) "a"; mkDecl None "b"]] [(1%N, "a" : str); (0%N, "b" : str)] 1%N "a" eq_refl (or_introl eq_refl)). vm_compute in H. discriminate.
Qed.
(** or not at all, *)
Theorem number_panics_refuted : ~ (forall secs syms s n, known_symbols secs = Val syms -> answers (interner_default syms) [OIntern s] = [ASymbol n] -> answers (interner_default syms) [OIntern s; ORead n] = [ASymbol n; AText s]).
Proof.
  intros H. specialize (H [[mkDecl (Some 5%N) "a"; mkDecl None "b"]] [(5%N, "a" : str); (0%N, "b" : str)] "a" 5%N eq_refl eq_refl). vm_compute in H. discriminate.
Qed.
(** and a text declared in two sections has two symbols. *)
Theorem sections_refuted : ~ (forall secs syms n s, known_symbols secs = Val syms -> In (n, s) syms -> answers (interner_default syms) [OIntern s] = [ASymbol n]).
Proof.
  intros H. specialize (H [[mkDecl None "a"]; [mkDecl None "a"]] [(0%N, "a" : str); (1%N, "a" : str)] 0%N "a" eq_refl (or_introl eq_refl)). vm_compute in H. discriminate.
Qed.

(** Numbers asked for in any order *)
Example any_order : known_symbols [[mkDecl None "x"; mkDecl (Some 1%N) "b"; mkDecl None "a"; mkDecl (Some 0%N) "c"]] = Val [(0%N, "c" : str); (1%N, "b" : str); (2%N, "a" : str); (3%N, "x" : str)].
Proof. reflexivity. Qed.
(** A history of litcheck's table *)
Definition litcheck_table : interner := match known_symbols symbols_toml with Val syms => interner_default syms | _ => mkInterner [] [] end.
Example history : answers litcheck_table [OIntern "reg"; OStatic "CHECK"; OIntern "addr"; OIntern "reg"; ORead 13%N; OCompare 13%N 14%N; ORead 15%N] =
  [ASymbol 13; ASymbol 10; ASymbol 14; ASymbol 13; AText "reg"; AOrder Gt; APanic].
Proof. reflexivity. Qed.
Print Assumptions symbols_same.
Print Assumptions symbols_read.
Print Assumptions symbols_compared.
Print Assumptions known_made.
Print Assumptions known_read.
Print Assumptions symbols_refused.

Print Assumptions build_numbered.
Print Assumptions declared_numbered.
Print Assumptions litcheck_numbered.
Print Assumptions number_refuted.
Print Assumptions number_panics_refuted.
Print Assumptions sections_refuted.
