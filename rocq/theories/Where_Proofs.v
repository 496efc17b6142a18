(** Proofs about where errors point. *)
From Coq Require Import String.
From Verif Require Import Base Cursor_Model Env_Model Env_Proofs Num_Model Gram_Model Parse_Model Smart_Model PatSet_Model Where_Model Where_Spec.
Notation length := List.length.
Open Scope list_scope. Open Scope nat_scope.

Lemma bind_val {A B} (x : res A) (f : A -> res B) b : bind x f = Val b -> exists a, x = Val a /\ f a = Val b.
Proof. destruct x; try discriminate. cbn. eauto. Qed.

(** Orders *)
Lemma io_weaken s n m l : m <= n -> in_order s n l -> in_order s m l.
Proof. destruct l as [|p r]; cbn; [trivial|]. intros L (A & B & C). repeat split; [assumption| |lia|assumption]. lia. Qed.
Lemma io_in s l : forall n x, in_order s n l -> In x l -> p_source x = s /\ n <= p_from x /\ p_from x <= p_upto x.
Proof.
  induction l as [|p r IH]; intros n x O I; [destruct I|]. destruct O as (A & B & C). destruct I as [<-|I].
  - repeat split; [assumption|lia|lia].
  - destruct (IH _ x C I) as (D & E & F). repeat split; [assumption|lia|lia].
Qed.
Lemma io_app s l m : forall n, in_order s n (l ++ m) -> in_order s n l /\ in_order s n m /\ forall x y, In x l -> In y m -> p_upto x <= p_from y.
Proof.
  induction l as [|p r IH]; intros n O; cbn in *.
  - repeat split; [assumption|intros x y []].
  - destruct O as (A & B & C). destruct (IH _ C) as (D & E & F). repeat split; [assumption|lia|lia|assumption| |].
    + eapply io_weaken; [|exact E]. lia.
    + intros x y [<-|I] J; [|now apply F]. destruct (io_in _ _ _ y E J) as (_ & G & _). lia.
Qed.
Lemma io_first s n a r : in_order s n (a :: r) -> forall x, In x r -> p_upto a <= p_from x.
Proof. intros (A & B & C) x I. now destruct (io_in _ _ _ x C I) as (_ & D & _). Qed.
Lemma io_le s n a r x : in_order s n (a :: r) -> In x (a :: r) -> p_from a <= p_from x.
Proof. intros O [<-|I]; [lia|]. pose proof (io_first _ _ _ _ O x I). destruct O as (A & B & C). lia. Qed.
Lemma last_cons {A} (r : list A) : forall a b, last (b :: r) a = last r b.
Proof. induction r as [|x r IH]; intros a b; [reflexivity|]. change (last (b :: x :: r) a) with (last (x :: r) a). now rewrite !IH. Qed.
Lemma last_in {A} (r : list A) : forall a, In (last r a) (a :: r).
Proof. induction r as [|x r IH]; intros a; [now left|]. right. rewrite last_cons. apply IH. Qed.
Lemma io_last s r : forall n a x, in_order s n (a :: r) -> In x (a :: r) -> p_upto x <= p_upto (last r a).
Proof.
  induction r as [|b r IH]; intros n a x O I.
  - destruct I as [<-|[]]. cbn. lia.
  - rewrite last_cons. destruct O as (A & B & C). destruct I as [<-|I]; [|now apply (IH _ b x C)].
    specialize (IH _ b b C (or_introl eq_refl)). destruct C as (D & E & F). lia.
Qed.

(** Least and greatest *)
Lemma first_start_least l : forall a, (forall x, In x l -> p_from a <= p_from x) -> first_start a l = a.
Proof.
  induction l as [|x r IH]; intros a H; [reflexivity|]. cbn [first_start]. replace (p_from x <? p_from a) with false.
  - apply IH. intros y I. apply H. now right.
  - symmetry. apply Nat.ltb_ge. apply H. now left.
Qed.
Lemma first_numbered_least l : forall k n a, (forall x, In x l -> p_from a <= p_from x) -> first_numbered k n a l = (k, a).
Proof.
  induction l as [|x r IH]; intros k n a H; [reflexivity|]. cbn [first_numbered]. replace (p_from x <? p_from a) with false.
  - apply IH. intros y I. apply H. now right.
  - symmetry. apply Nat.ltb_ge. apply H. now left.
Qed.
Lemma last_end_greatest l : forall a, In (last_end a l) (a :: l) /\ forall x, In x (a :: l) -> p_upto x <= p_upto (last_end a l).
Proof.
  induction l as [|y r IH]; intros a; cbn [last_end].
  - split; [now left|]. intros x [<-|[]]. lia.
  - destruct (p_upto a <=? p_upto y) eqn:E.
    + apply Nat.leb_le in E. destruct (IH y) as [A B]. split; [now right|]. intros x [<-|I]; [|now apply B].
      specialize (B y (or_introl eq_refl)). lia.
    + apply Nat.leb_gt in E. destruct (IH a) as [A B]. split; [destruct A as [A|A]; [now left|now right; right]|].
      intros x [<-|[<-|I]]; [apply B; now left| |apply B; now right]. specialize (B a (or_introl eq_refl)). lia.
Qed.
Lemma max_end l e : max_by_end l = Val e -> In e l /\ forall x, In x l -> p_upto x <= p_upto e.
Proof. destruct l as [|a r]; [discriminate|]. intros E. injection E as <-. apply last_end_greatest. Qed.

(** Beginnings that differ *)
Lemma unlike_eqb p q : unlike p q -> prefix_eqb q p = false.
Proof.
  assert (G : forall s t, s <> t -> str_eqb t s = false) by (intros; apply str_eqb_neq; congruence).
  destruct p as [|s|s|s [|c cs]|[n x|f c e]], q as [|t|t|t [|d ds]|[m y|f' d e']]; cbn; intros U; try reflexivity; try (now apply G); try contradiction; try (now rewrite (G _ _ U)).
  1-3: destruct s; [congruence|reflexivity].
  destruct (vname_eqb m n) eqn:E; [|reflexivity]. apply vname_eqb_eq in E. congruence.
Qed.
Lemma find_none p u : Forall (fun k => prefix_eqb p (fst k) = false) u -> find_prefix p u = None.
Proof. unfold find_prefix. induction 1 as [|k u E F IH]; [reflexivity|]. cbn. now rewrite E. Qed.

(** What is gathered *)
Notation suffix_of := (fun c => (pl_place c, pl_more c)).
Lemma gather_unlike l : forall id u ps ss r, all_unlike l -> Forall (fun c => Forall (fun k => prefix_eqb (pl_prefix c) (fst k) = false) u) l ->
  gather id l u ps ss = Val r -> r = (ps ++ l, ss ++ map (fun c => [suffix_of c]) l).
Proof.
  induction l as [|c l IH]; intros id u ps ss r A F G; cbn in G.
  - injection G as <-. now rewrite !app_nil_r.
  - inversion A as [|? ? U A']; subst. inversion F as [|? ? F1 F2]; subst. rewrite (find_none _ _ F1) in G. destruct (not_empty (pl_prefix c)); [|discriminate].
    apply IH in G; [|assumption|].
    + rewrite G. cbn. now rewrite <- !app_assoc.
    + rewrite Forall_forall in *. intros d I. apply Forall_app. split; [now apply F2|]. constructor; [|constructor]. cbn. apply unlike_eqb. now apply U.
Qed.
(** In general: the first pattern is kept, and its suffix is the first of its prefix; nothing else than the patterns is entered, and every
    pattern is entered. *)
Definition entered (A : placed -> Prop) (ps : list placed) (ss : list (list (place * bool))) : Prop :=
  Forall A ps /\ (forall s x, In s ss -> In x s -> exists c, A c /\ x = suffix_of c) /\ Forall2 (fun c s => exists t, s = suffix_of c :: t) ps ss.
Lemma enter_spec {A} k (s : A) l l' : enter k s l = Val l' ->
  (forall g, In g l' -> exists g0, In g0 l /\ (g = g0 \/ g = g0 ++ [s])) /\ (exists g, In g l' /\ In s g) /\ (forall g x, In g l -> In x g -> exists g', In g' l' /\ In x g').
Proof.
  unfold enter. destruct (nth_error l k) as [x|] eqn:E; [|discriminate]. intros H. assert (H' : firstn k l ++ (x ++ [s]) :: skipn (S k) l = l') by congruence. rewrite <- H'. clear H H'. destruct (nth_error_split _ _ E) as (l1 & l2 & -> & L).
  subst k. assert (K1 : firstn (length l1) (l1 ++ x :: l2) = l1) by (clear; induction l1 as [|y l1 IH]; [reflexivity|cbn; now rewrite IH]).
  assert (K2 : skipn (S (length l1)) (l1 ++ x :: l2) = l2) by (clear; induction l1 as [|y l1 IH]; [reflexivity|exact IH]).
  rewrite K1, K2. clear K1 K2 E.
  repeat split.
  - intros g I. apply in_app_or in I as [I|[<-|I]].
    + exists g. split; [apply in_or_app; now left|now left].
    + exists x. split; [apply in_or_app; right; now left|now right].
    + exists g. split; [apply in_or_app; right; now right|now left].
  - exists (x ++ [s]). split; apply in_or_app; right; now left.
  - intros g y I J. apply in_app_or in I as [I|[<-|I]].
    + exists g. split; [apply in_or_app; now left|assumption].
    + exists (x ++ [s]). split; [apply in_or_app; right; now left|apply in_or_app; now left].
    + exists g. split; [apply in_or_app; right; now right|assumption].
Qed.
Lemma enter_heads k s ps (l l' : list (list (place * bool))) : enter k s l = Val l' ->
  Forall2 (fun c g => exists t, g = suffix_of c :: t) ps l -> Forall2 (fun c g => exists t, g = suffix_of c :: t) ps l'.
Proof.
  unfold enter. destruct (nth_error l k) as [x|] eqn:E; [|discriminate]. intros H. injection H as <-. intros F. revert k E.
  induction F as [|c g ps l (t & ->) F IH]; intros k E; [destruct k; discriminate|]. destruct k as [|k].
  - cbn in E. injection E as <-. cbn. constructor; [eexists; reflexivity|assumption].
  - cbn in E. cbn. constructor; [eexists; reflexivity|]. now apply IH.
Qed.
Lemma gather_entered (A : placed -> Prop) l : forall id u ps ss ps' ss', Forall A l -> entered A ps ss -> gather id l u ps ss = Val (ps', ss') ->
  entered A ps' ss' /\ (exists qs, ps' = ps ++ qs) /\
  (forall s x, In s ss -> In x s -> exists s', In s' ss' /\ In x s') /\ (forall c, In c l -> exists s, In s ss' /\ In (suffix_of c) s).
Proof.
  induction l as [|c l IH]; intros id u ps ss ps' ss' F (E1 & E2 & E3) G; cbn in G.
  - injection G as <- <-. split; [now repeat split|]. split; [exists []; now rewrite app_nil_r|]. split; [eauto|intros c []].
  - inversion F as [|? ? F1 F2]; subst. destruct (find_prefix (pl_prefix c) u) as [k|].
    + apply bind_val in G as (ss1 & H & G). destruct (enter_spec _ _ _ _ H) as (H1 & H2 & H3). apply IH in G; [|assumption|].
      * destruct G as (G1 & G2 & G3 & G4). split; [assumption|]. split; [assumption|]. split.
        -- intros s x I J. destruct (H3 s x I J) as (s' & I' & J'). eapply G3; eassumption.
        -- intros d [<-|I]; [|now apply G4]. destruct H2 as (g & I & J). eapply G3; eassumption.
      * repeat split; [assumption| |eapply enter_heads; eassumption]. intros s x I J. destruct (H1 s I) as (g0 & I0 & [-> | ->]); [now apply (E2 g0)|].
        apply in_app_or in J as [J|[<-|[]]]; [now apply (E2 g0)|]. exists c. now split.
    + destruct (not_empty (pl_prefix c)); [|discriminate]. apply IH in G; [|assumption|].
      * destruct G as (G1 & (qs & G2) & G3 & G4). split; [assumption|]. split; [exists (c :: qs); rewrite G2, <- app_assoc; reflexivity|]. split.
        -- intros s x I J. apply (G3 s x); [apply in_or_app; now left|assumption].
        -- intros d [<-|I]; [|now apply G4]. apply (G3 [suffix_of c]); [apply in_or_app; right|]; now left.
      * repeat split.
        -- apply Forall_app. split; [assumption|now constructor].
        -- intros s x I J. apply in_app_or in I as [I|[<-|[]]]; [now apply (E2 s)|]. destruct J as [<-|[]]. exists c. now split.
        -- apply Forall2_app; [assumption|]. constructor; [eexists; reflexivity|constructor].
Qed.
Lemma arrange_cases l w : arrange l = Val w -> exists ps ss, gather 0 l [] [] [] = Val (ps, ss) /\
  ((w = Flat (map prefix_place ps) /\ forall s x, In s ss -> In x s -> snd x = false) \/
   w = Any (map prefix_place ps) (map (map (@fst place bool)) ss) \/ w = Prefixed (map prefix_place ps) (map (map (@fst place bool)) ss)).
Proof.
  intros H. apply bind_val in H as ([ps ss] & G & H). exists ps, ss. split; [assumption|].
  destruct (forallb (forallb (fun s : place * bool => negb (snd s))) ss) eqn:B.
  - assert (S : forall s x, In s ss -> In x s -> snd x = false).
    { intros s x I J. rewrite forallb_forall in B. apply B in I. rewrite forallb_forall in I. apply I in J. now apply negb_true_iff in J. }
    repeat match type of H with context [if ?b then _ else _] => destruct b end; try discriminate; injection H as <-; auto.
  - repeat match type of H with context [if ?b then _ else _] => destruct b end; try discriminate; injection H as <-; auto.
Qed.
Lemma prefix_place_from c : p_from (prefix_place c) = p_from (pl_place c) /\ p_source (prefix_place c) = p_source (pl_place c).
Proof. unfold prefix_place. now destruct (pl_more c). Qed.
Lemma prefix_place_upto c : inside c -> p_upto (prefix_place c) <= p_upto (pl_place c).
Proof. intros [_ H]. unfold prefix_place. destruct (pl_more c); cbn; lia. Qed.
Lemma prefix_place_whole c : pl_more c = false -> prefix_place c = pl_place c.
Proof. unfold prefix_place. now intros ->. Qed.

Section Set_.
Variables (s n : nat) (c : placed) (l : list placed).
Hypothesis O : in_order s n (map pl_place (c :: l)).
Hypothesis I : Forall inside (c :: l).
Let z := last (map pl_place l) (pl_place c).

Lemma from_le d : In d (c :: l) -> p_from (pl_place c) <= p_from (pl_place d).
Proof using O. intros J. apply (io_le _ _ _ (map pl_place l) _ O). change (In (pl_place d) (map pl_place (c :: l))). now apply in_map. Qed.
Lemma upto_le d : In d (c :: l) -> p_upto (pl_place d) <= p_upto z.
Proof using O. intros J. apply (io_last _ (map pl_place l) _ _ _ O). change (In (pl_place d) (map pl_place (c :: l))). now apply in_map. Qed.
Lemma is_inside d : In d (c :: l) -> inside d.
Proof using I. rewrite Forall_forall in I. apply I. Qed.
Lemma z_in : exists d, In d (c :: l) /\ pl_place d = z.
Proof using. pose proof (last_in (map pl_place l) (pl_place c)) as H. change (In z (map pl_place (c :: l))) in H. apply in_map_iff in H as (d & E & J). eauto. Qed.

(** What is gathered from the set *)
Lemma gathered ps ss : gather 0 (c :: l) [] [] [] = Val (ps, ss) ->
  exists qs t ss1, ps = c :: qs /\ ss = (suffix_of c :: t) :: ss1 /\ incl qs (c :: l) /\
    (forall g x, In g ss -> In x g -> exists d, In d (c :: l) /\ x = suffix_of d) /\ (forall d, In d (c :: l) -> exists g, In g ss /\ In (suffix_of d) g) /\
    Forall2 (fun c s => exists t, s = suffix_of c :: t) ps ss.
Proof using.
  intros G. assert (E : not_empty (pl_prefix c) = true) by (cbn in G; destruct (not_empty (pl_prefix c)); [reflexivity|discriminate]).
  pose proof G as G'. cbn [gather] in G'. unfold find_prefix in G'. cbn in G'. rewrite E in G'.
  apply (gather_entered (fun d => In d (c :: l))) in G' as ((A1 & A2 & A3) & (qs & A4) & A5 & A6).
  - cbn in A4. subst ps. inversion A3 as [|? g ? ss1 (t & ->) A3']; subst. exists qs, t, ss1. repeat split; try reflexivity.
    + intros d J. rewrite Forall_forall in A1. apply A1. now right.
    + intros g x J K. destruct (A2 g x J K) as (d & D & F). eauto.
    + intros d [<-|J]; [|now apply A6]. exists (suffix_of c :: t). split; now left.
    + assumption.
  - rewrite Forall_forall. intros d J. now right.
  - repeat split.
    + constructor; [now left|constructor].
    + intros g x [<-|[]] [<-|[]]. exists c. split; [now left|reflexivity].
    + constructor; [eexists; reflexivity|constructor].
Qed.
Lemma least_prefix qs : incl qs (c :: l) -> first_start (prefix_place c) (map prefix_place qs) = prefix_place c /\
  forall k m, first_numbered k m (prefix_place c) (map prefix_place qs) = (k, prefix_place c).
Proof using O.
  intros J. assert (G : forall x, In x (map prefix_place qs) -> p_from (prefix_place c) <= p_from x).
  { intros x K. apply in_map_iff in K as (d & <- & K). rewrite (proj1 (prefix_place_from c)), (proj1 (prefix_place_from d)). apply from_le. now apply J. }
  split; [now apply first_start_least|]. intros k m. now apply first_numbered_least.
Qed.

Lemma set_first_begins p : set_first (c :: l) = Val p ->
  p_source p = p_source (pl_place c) /\ p_from p = p_from (pl_place c) /\ p_upto (pl_place c) <= p_upto p <= p_upto z.
Proof using O I.
  intros H. apply bind_val in H as (w & H & F). apply arrange_cases in H as (ps & ss & G & C). destruct (gathered _ _ G) as (qs & t & ss1 & -> & -> & Q & A & B & _).
  destruct (least_prefix qs Q) as [L1 L2]. pose proof (upto_le c (or_introl eq_refl)).
  assert (K : forall p', match nth_error (map (map (@fst place bool)) ((suffix_of c :: t) :: ss1)) 0 with Some g => do e <- max_by_end g; Val (join (prefix_place c) e) | None => Panic end = Val p' ->
    p_source p' = p_source (pl_place c) /\ p_from p' = p_from (pl_place c) /\ p_upto (pl_place c) <= p_upto p' <= p_upto z).
  { intros p' E. cbn [nth_error map fst] in E. apply bind_val in E as (e & E & E'). injection E' as <-. apply max_end in E as [E1 E2]. cbn.
    rewrite (proj1 (prefix_place_from c)), (proj2 (prefix_place_from c)). repeat split; [apply E2; now left|].
    change (pl_place c :: map fst t) with (map (@fst place bool) (suffix_of c :: t)) in E1. apply in_map_iff in E1 as (x & <- & J). destruct (A _ x (or_introl eq_refl) J) as (d & D & ->). now apply upto_le. }
  destruct C as [[-> S1]|[->| ->]].
  - cbn in F. rewrite L1 in F. injection F as <-. rewrite prefix_place_whole; [repeat split; [lia|assumption]|]. apply (S1 _ (suffix_of c) (or_introl eq_refl) (or_introl eq_refl)).
  - cbn [first_of_set map] in F. rewrite L2 in F. now apply K.
  - cbn [first_of_set map] in F. rewrite L2 in F. now apply K.
Qed.
Lemma unlike_gathered ps ss : all_unlike (c :: l) -> gather 0 (c :: l) [] [] [] = Val (ps, ss) -> ps = c :: l /\ ss = map (fun c => [suffix_of c]) (c :: l).
Proof using.
  intros U G. apply gather_unlike in G; [|assumption|].
  - injection G as -> ->. now split.
  - rewrite Forall_forall. constructor.
Qed.
Lemma set_first_exact p : all_unlike (c :: l) -> set_first (c :: l) = Val p -> p = pl_place c.
Proof using O I.
  intros U H. apply bind_val in H as (w & H & F). apply arrange_cases in H as (ps & ss & G & C). destruct (unlike_gathered _ _ U G) as [-> ->].
  destruct (least_prefix l) as [L1 L2]; [intros d J; now right|].
  assert (K : join (prefix_place c) (pl_place c) = pl_place c).
  { unfold join. rewrite (proj1 (prefix_place_from c)), (proj2 (prefix_place_from c)). now destruct (pl_place c). }
  destruct C as [[-> S1]|[->| ->]].
  - cbn in F. rewrite L1 in F. injection F as <-. apply prefix_place_whole. apply (S1 [suffix_of c] (suffix_of c)); now left.
  - cbn [first_of_set map] in F. rewrite L2 in F. cbn in F. injection F as <-. exact K.
  - cbn [first_of_set map] in F. rewrite L2 in F. cbn in F. injection F as <-. exact K.
Qed.
Lemma suffix_places ss1 d x : incl ss1 (map (fun c => [suffix_of c]) (c :: l)) -> In x (map (group_end d) (map (map (@fst place bool)) ss1)) -> exists e, In e (c :: l) /\ x = pl_place e.
Proof using.
  intros J K. apply in_map_iff in K as (g & <- & K). apply in_map_iff in K as (h & <- & K). apply J in K. apply in_map_iff in K as (e & <- & K). exists e. now split.
Qed.
Lemma set_place_bounds p : set_place (c :: l) = Val p ->
  p_source p = p_source (pl_place c) /\ p_from p = p_from (pl_place c) /\ p_upto (pl_place c) <= p_upto p <= p_upto z.
Proof using O I.
  intros H. apply bind_val in H as (w & H & F). apply arrange_cases in H as (ps & ss & G & C). destruct (gathered _ _ G) as (qs & t & ss1 & -> & -> & Q & A & B & AL).
  destruct (least_prefix qs Q) as [L1 L2]. pose proof (upto_le c (or_introl eq_refl)) as Z.
  assert (P : forall x, In x (map prefix_place (c :: qs)) -> p_upto x <= p_upto z).
  { intros x J. apply in_map_iff in J as (d & <- & J). assert (D : In d (c :: l)) by (destruct J as [<-|J]; [now left|now apply Q]).
    transitivity (p_upto (pl_place d)); [now apply prefix_place_upto, is_inside|now apply upto_le]. }
  assert (E : forall d g, In g ((suffix_of c :: t) :: ss1) -> g <> [] -> exists e, In e (c :: l) /\ group_end d (map fst g) = pl_place e /\ forall x, In x g -> p_upto (fst x) <= p_upto (pl_place e)).
  { intros d g J N0. destruct g as [|x g]; [congruence|]. cbn [group_end map]. destruct (last_end_greatest (map fst g) (fst x)) as [M1 M2].
    change (fst x :: map fst g) with (map (@fst place bool) (x :: g)) in M1, M2. apply in_map_iff in M1 as (y & M1 & K). destruct (A _ y J K) as (e & D & ->). exists e.
    split; [assumption|]. cbn [fst] in M1. split; [now symmetry|]. intros y K'. rewrite M1. apply M2. now apply in_map. }
  assert (NN : forall g, In g ((suffix_of c :: t) :: ss1) -> g <> []).
  { intros g J ->. clear - AL J. induction AL as [|c0 g0 ps0 ss0 (t0 & ->) AL IH]; [destruct J|]. destruct J as [J|J]; [discriminate|now apply IH]. }
  destruct C as [[-> S1]|[->| ->]].
  - cbn [place_of_set] in F. apply bind_val in F as (a & F1 & F). apply bind_val in F as (e & F2 & F). injection F as <-. cbn [map min_by_start] in F1. rewrite L1 in F1. injection F1 as <-.
    apply max_end in F2 as [M1 M2]. cbn. rewrite (proj1 (prefix_place_from c)), (proj2 (prefix_place_from c)). repeat split; [|now apply P].
    rewrite <- (prefix_place_whole c); [apply M2; now left|]. apply (S1 _ (suffix_of c) (or_introl eq_refl) (or_introl eq_refl)).
  - cbn [place_of_set] in F. apply bind_val in F as (a & F1 & F). apply bind_val in F as (e & F2 & F). injection F as <-. cbn [map min_by_start] in F1. rewrite L1 in F1. injection F1 as <-.
    apply max_end in F2 as [M1 M2]. cbn. rewrite (proj1 (prefix_place_from c)), (proj2 (prefix_place_from c)). repeat split.
    + destruct (E (prefix_place c) (suffix_of c :: t) (or_introl eq_refl) (NN _ (or_introl eq_refl))) as (d & D & D1 & D2).
      transitivity (p_upto (pl_place d)); [exact (D2 (suffix_of c) (or_introl eq_refl))|]. rewrite <- D1. apply M2. now left.
    + apply in_map_iff in M1 as ([x g] & <- & J). apply in_combine_r in J. apply in_map_iff in J as (h & <- & J). destruct (E x h J (NN _ J)) as (d & D & D1 & D2).
      cbn [fst snd]. rewrite D1. now apply upto_le.
  - cbn [place_of_set] in F. apply bind_val in F as (a & F1 & F). apply bind_val in F as (b & F2 & F). apply bind_val in F as (e & F3 & F). injection F as <-. cbn [map min_by_start] in F1. rewrite L1 in F1. injection F1 as <-.
    apply max_end in F2 as [M1 M2]. apply max_end in F3 as [M3 M4]. cbn [p_source p_from p_upto]. rewrite (proj1 (prefix_place_from c)), (proj2 (prefix_place_from c)). repeat split.
    + destruct (E (join (prefix_place c) b) (suffix_of c :: t) (or_introl eq_refl) (NN _ (or_introl eq_refl))) as (d & D & D1 & D2).
      transitivity (p_upto (pl_place d)); [exact (D2 (suffix_of c) (or_introl eq_refl))|]. rewrite <- D1. transitivity (p_upto e); [apply M4; now left|lia].
    + apply Nat.max_lub; [now apply P|]. apply in_map_iff in M3 as (g & <- & J). apply in_map_iff in J as (h & <- & J). destruct (E (join (prefix_place c) b) h J (NN _ J)) as (d & D & D1 & D2).
      rewrite D1. now apply upto_le.
Qed.
Lemma set_place_exact p : all_unlike (c :: l) -> set_place (c :: l) = Val p -> p = mkPlace (p_source (pl_place c)) (p_from (pl_place c)) (p_upto z).
Proof using O I.
  intros U H. destruct (set_place_bounds _ H) as (B1 & B2 & B3 & B4). enough (p_upto z <= p_upto p) by (destruct p as [x y v]; cbn in *; subst; f_equal; lia).
  apply bind_val in H as (w & H & F). apply arrange_cases in H as (ps & ss & G & C). destruct (unlike_gathered _ _ U G) as [-> ->]. destruct z_in as (d & D & <-).
  destruct C as [[-> S1]|[->| ->]].
  - cbn [place_of_set] in F. apply bind_val in F as (a & F1 & F). apply bind_val in F as (e & F2 & F). injection F as <-. apply max_end in F2 as [M1 M2]. cbn.
    rewrite <- (prefix_place_whole d); [apply M2; now apply in_map|]. apply (S1 [suffix_of d] (suffix_of d)); [apply in_map_iff; now exists d|now left].
  - cbn [place_of_set] in F. apply bind_val in F as (a & F1 & F). apply bind_val in F as (e & F2 & F). injection F as <-. apply max_end in F2 as [M1 M2]. cbn.
    apply M2. apply in_map_iff. exists (prefix_place d, [pl_place d]). split; [reflexivity|]. clear - D. induction (c :: l) as [|x r IH]; [destruct D|].
    destruct D as [<-|D]; [now left|right; now apply IH].
  - cbn [place_of_set] in F. apply bind_val in F as (a & F1 & F). apply bind_val in F as (b & F2 & F). apply bind_val in F as (e & F3 & F). injection F as <-.
    apply max_end in F3 as [M3 M4]. cbn [p_upto]. transitivity (p_upto e); [|lia]. apply M4. apply in_map_iff. exists [pl_place d]. split; [reflexivity|].
    apply in_map_iff. exists [suffix_of d]. split; [reflexivity|]. apply in_map_iff. now exists d.
Qed.
End Set_.
Lemma set_nil p : set_first [] = Val p \/ set_place [] = Val p -> False.
Proof. intros [H|H]; discriminate H. Qed.

(** What the patterns of a set are when their prefixes are taken off *)
Lemma compact_one_last st q : (fst st = [] \/ exists l m, fst st = l ++ [KMatch m]) -> fst (compact_one st q) = [] \/ exists l m, fst (compact_one st q) = l ++ [KMatch m].
Proof.
  destruct st as [out p]. intros H. destruct q as [t|t|m]; [exact H|exact H|]. destruct m as [v [re|]|f [v|] [e|]]; cbn; try exact H; right; rewrite app_assoc; eauto.
Qed.
Lemma compact_last l : forall st, (fst st = [] \/ exists l m, fst st = l ++ [KMatch m]) ->
  fst (fold_left compact_one l st) = [] \/ exists l' m, fst (fold_left compact_one l st) = l' ++ [KMatch m].
Proof. induction l as [|q l IH]; intros st H; [exact H|]. cbn. apply IH. now apply compact_one_last. Qed.
Lemma taken_off c : let (x, r) := pop_prefix (compact c) in match x with FLit _ => r = KpEmpty | FSub _ => r <> KpEmpty | _ => True end.
Proof.
  destruct c as [|t|t|l]; try exact I; [reflexivity|]. destruct l as [|q l]; [exact I|]. unfold compact. pose proof (compact_last (q :: l) ([], nothing_pending) (or_introl eq_refl)) as H.
  destruct (fold_left compact_one (q :: l) ([], nothing_pending)) as [out p]. cbn [fst] in H. destruct out as [|x out].
  - destruct (p_lit p); cbn; [reflexivity|exact I].
  - destruct H as [H|(l' & m & H)]; [discriminate|]. cbn [app pop_prefix]. destruct x as [t|t cs|m']; try exact I. destruct out as [|y out]; [|discriminate].
    destruct l' as [|z [|w l']]; discriminate H.
Qed.
Lemma read_lit c p m : (forall t, pl_prefix (read c p m) = FLit t -> pl_more (read c p m) = false) /\ (forall t, pl_prefix (read c p m) = FSub t -> pl_more (read c p m) = true).
Proof.
  pose proof (taken_off c) as H. unfold read. destruct (pop_prefix (compact c)) as [x r]. cbn [pl_prefix pl_more]. split; intros t ->; [now rewrite H|]. destruct r; congruence.
Qed.
Lemma gather_answers l : forall id u ps ss, all_unlike l -> Forall (fun c => Forall (fun k => prefix_eqb (pl_prefix c) (fst k) = false) u) l ->
  Forall (fun c => pl_prefix c <> FEmpty) l -> exists r, gather id l u ps ss = Val r.
Proof.
  induction l as [|c l IH]; intros id u ps ss A F N; [eexists; reflexivity|]. inversion A as [|? ? U A']; inversion F as [|? ? F1 F2]; inversion N as [|? ? N1 N2]; subst.
  cbn [gather]. rewrite (find_none _ _ F1). replace (not_empty (pl_prefix c)) with true by (destruct (pl_prefix c); [now destruct N1| | | |]; reflexivity). apply IH; [assumption| |assumption].
  rewrite Forall_forall in *. intros d J. apply Forall_app. split; [now apply F2|]. constructor; [|constructor]. cbn. apply unlike_eqb. now apply U.
Qed.
Lemma forallb_false {A} (f : A -> bool) l : forallb f l = false -> exists x, In x l /\ f x = false.
Proof.
  induction l as [|x l IH]; [discriminate|]. cbn. destruct (f x) eqn:E; [|intros _; exists x; split; [now left|assumption]]. intros H. destruct (IH H) as (y & J & K). exists y. split; [now right|assumption].
Qed.
Lemma arrange_answers l : made l -> all_unlike l -> exists w, arrange l = Val w.
Proof.
  intros [_ M] U. assert (N : Forall (fun c => pl_prefix c <> FEmpty) l) by (rewrite Forall_forall in *; intros c J; now destruct (M c J) as (? & ? & ? & _ & ?)).
  destruct (gather_answers l 0 [] [] [] U) as (r & G); [rewrite Forall_forall; constructor|assumption|]. unfold arrange. rewrite G.
  apply gather_unlike in G; [|assumption|rewrite Forall_forall; constructor]. subst r. cbn [bind app]. rewrite Forall_forall in M.
  destruct (forallb (fun c => is_lit (pl_prefix c)) l) eqn:L.
  - replace (forallb _ _) with true; [eexists; reflexivity|]. symmetry. apply forallb_forall. intros s J. apply in_map_iff in J as (c & <- & J). cbn. rewrite andb_true_r. apply negb_true_iff.
    rewrite forallb_forall in L. specialize (L c J). destruct (M c J) as (pat & p & mid & E & _). destruct (pl_prefix c) eqn:P; try discriminate. rewrite E in P |- *. now apply (read_lit pat p mid) in P.
  - destruct (forallb (fun c => is_sub (pl_prefix c)) l) eqn:S.
    + apply forallb_false in L as (c & J & K). rewrite forallb_forall in S. specialize (S c J). replace (forallb _ _) with false; [eexists; reflexivity|]. symmetry.
      destruct (forallb _ _) eqn:X; [|reflexivity]. rewrite forallb_forall in X. specialize (X [suffix_of c]). rewrite forallb_forall in X.
      assert (Y : negb (pl_more c) = true) by (apply (X (in_map (fun c => [suffix_of c]) _ _ J) (suffix_of c)); now left).
      destruct (M c J) as (pat & p & mid & E & _). destruct (pl_prefix c) eqn:P; try discriminate. rewrite E in P, Y. apply (read_lit pat p mid) in P. rewrite P in Y. discriminate.
    + destruct (forallb (fun c => is_regex (pl_prefix c)) l); eexists; reflexivity.
Qed.
Lemma sets_answer l : made l -> all_unlike l -> (exists p, set_first l = Val p) /\ exists p, set_place l = Val p.
Proof.
  intros M U. destruct (arrange_answers l M U) as (w & W). unfold set_first, set_place. rewrite W. cbn [bind]. destruct l as [|c l]; [now destruct M|].
  apply arrange_cases in W as (ps & ss & G & C). destruct (unlike_gathered c l _ _ U G) as [-> ->].
  destruct C as [[-> _]|[->| ->]]; cbn [first_of_set place_of_set map min_by_start max_by_end bind combine nth_error fst].
  - split; eexists; reflexivity.
  - split; [|eexists; reflexivity]. destruct (first_numbered 0 1 (prefix_place c) (map prefix_place l)) as [k a] eqn:F.
    assert (K : k <= length l).
    { enough (G' : forall r k0 m x, k0 < m -> fst (first_numbered k0 m x r) < m + length r) by (specialize (G' (map prefix_place l) 0 1 (prefix_place c)); rewrite F, map_length in G'; cbn in G'; lia).
      clear. induction r as [|y r IH]; intros k0 m x L; [cbn; lia|]. cbn [first_numbered length]. destruct (p_from y <? p_from x); [specialize (IH m (S m) y)|specialize (IH k0 (S m) x)]; lia. }
    destruct k as [|k]; [eexists; reflexivity|]. cbn [nth_error]. rewrite map_map. destruct (nth_error _ k) as [g|] eqn:E.
    + rewrite nth_error_map in E. destruct (nth_error l k); [|discriminate]. injection E as <-. eexists. reflexivity.
    + apply nth_error_None in E. rewrite map_length in E. lia.
  - split; [|eexists; reflexivity]. destruct (first_numbered 0 1 (prefix_place c) (map prefix_place l)) as [k a] eqn:F.
    assert (K : k <= length l).
    { enough (G' : forall r k0 m x, k0 < m -> fst (first_numbered k0 m x r) < m + length r) by (specialize (G' (map prefix_place l) 0 1 (prefix_place c)); rewrite F, map_length in G'; cbn in G'; lia).
      clear. induction r as [|y r IH]; intros k0 m x L; [cbn; lia|]. cbn [first_numbered length]. destruct (p_from y <? p_from x); [specialize (IH m (S m) y)|specialize (IH k0 (S m) x)]; lia. }
    destruct k as [|k]; [eexists; reflexivity|]. cbn [nth_error]. rewrite map_map. destruct (nth_error _ k) as [g|] eqn:E.
    + rewrite nth_error_map in E. destruct (nth_error l k); [|discriminate]. injection E as <-. eexists. reflexivity.
    + apply nth_error_None in E. rewrite map_length in E. lia.
Qed.
