(** The engine lists the matches of an expression in the order of preference. *)
From Coq Require Import String Sorted.
From Verif Require Import Base Text_Model Cursor_Model Check_Model Lit_Model Lit_Spec Env_Model Num_Model Gram_Model Parse_Model
  Regex_Model Regex_Spec Regex_Proofs Regex_Engine Regex_Frame Smart_Model Smart_Spec Smart_Static Smart_Parts Choice_Spec.
Open Scope list_scope.
Open Scope nat_scope.
Ltac splits := repeat match goal with |- _ /\ _ => split end.

(** * The order *)
Lemma sooner_irr t : ~ sooner t t.
Proof. intros (p & x & y & E & F). rewrite E in F. apply app_inv_head in F. discriminate. Qed.
Lemma sooner_app p t u : sooner t u -> sooner (p ++ t) (p ++ u).
Proof. intros (q & x & y & -> & ->). exists (p ++ q), x, y. now rewrite <- !app_assoc. Qed.
Lemma sooner_ext t u x y : sooner t u -> sooner (t ++ x) (u ++ y).
Proof. intros (q & v & w & -> & ->). exists q, (v ++ x), (w ++ y). now rewrite <- !app_assoc. Qed.
Lemma sooner_cons c t u : sooner t u -> sooner (c :: t) (c :: u).
Proof. apply (sooner_app [c]). Qed.
Lemma sooner_head t u : sooner (false :: t) (true :: u).
Proof. exists [], t, u. auto. Qed.
Lemma sooner_inv c d t u : sooner (c :: t) (d :: u) -> c = false /\ d = true \/ c = d /\ sooner t u.
Proof.
  intros ([|z p] & x & y & E & F); cbn [app] in *; injection E as -> ->; injection F as -> ->; [now left|]. right. split; [reflexivity|]. now exists p, x, y.
Qed.
Lemma sooner_nil t : ~ sooner t [] /\ ~ sooner [] t.
Proof. split; intros ([|z p] & x & y & E & F); discriminate. Qed.
Lemma sooner_asym t : forall u, sooner t u -> ~ sooner u t.
Proof.
  induction t as [|c t IH]; intros u; [intros H; now elim (proj2 (sooner_nil u))|]. destruct u as [|d u]; [intros H; now elim (proj1 (sooner_nil (c :: t)))|].
  intros A B. apply sooner_inv in A as [[E1 E2]|[E A]]; apply sooner_inv in B as [[E3 E4]|[E3 B]]; try congruence. exact (IH u A B).
Qed.

(** * Listings: lists of results with their choices, in order *)
Section Listing.
Context {P : Type}.
Definition listing (R : choices -> P -> Prop) (l : list P) : Prop :=
  exists L, map snd L = l /\ StronglySorted (fun x y => sooner (fst x) (fst y)) L /\ forall t p, In (t, p) L <-> R t p.
Lemma listing_iff (R S : choices -> P -> Prop) l : (forall t p, R t p <-> S t p) -> listing R l -> listing S l.
Proof. intros H (L & A & B & C). exists L. splits; auto. intros t p. now rewrite C. Qed.
Lemma listing_one (R : choices -> P -> Prop) a : (forall t p, R t p <-> t = [] /\ p = a) -> listing R [a].
Proof. intros H. exists [([], a)]. splits; [reflexivity|constructor; constructor|]. intros t p. rewrite H. cbn. split; [intros [[= <- <-]|[]]; auto|intros [-> ->]; auto]. Qed.
Lemma listing_nil (R : choices -> P -> Prop) : (forall t p, ~ R t p) -> listing R [].
Proof. intros H. exists []. splits; [reflexivity|constructor|]. intros t p. split; [intros []|intros X; now elim (H t p)]. Qed.
Lemma sorted_app {A} (R : A -> A -> Prop) l m : StronglySorted R l -> StronglySorted R m -> (forall x y, In x l -> In y m -> R x y) -> StronglySorted R (l ++ m).
Proof.
  induction 1 as [|x l H IH F]; intros M X; [exact M|]. cbn [app]. constructor; [apply IH; auto; intros; apply X; auto; now right|].
  apply Forall_app. split; [exact F|]. apply Forall_forall. intros y I. apply X; [now left|exact I].
Qed.
Lemma sorted_map {A B} (R : A -> A -> Prop) (S : B -> B -> Prop) f l : (forall x y, R x y -> S (f x) (f y)) -> StronglySorted R l -> StronglySorted S (map f l).
Proof.
  intros H. induction 1 as [|x l Hl IH F]; cbn [map]; constructor; auto. apply Forall_map. eapply Forall_impl; [|exact F]. cbv beta. auto.
Qed.
Lemma listing_alt (c : bool) (R S : choices -> P -> Prop) l m : listing R l -> listing S m ->
  listing (fun t p => exists u, (t = c :: u /\ R u p) \/ (t = negb c :: u /\ S u p)) (if c then m ++ l else l ++ m).
Proof.
  intros (L & <- & B & C) (M & <- & B' & C').
  assert (W : forall d : bool, forall N, StronglySorted (fun x y : choices * P => sooner (fst x) (fst y)) N -> StronglySorted (fun x y => sooner (fst x) (fst y)) (map (fun x => (d :: fst x, snd x)) N)).
  { intros d N. apply sorted_map. intros x y H. cbn [fst]. now apply sooner_cons. }
  assert (In1 : forall (d : bool) N t (p : P), In (t, p) (map (fun x => (d :: fst x, snd x)) N) <-> exists u, t = d :: u /\ In (u, p) N).
  { intros d N t p. rewrite in_map_iff. split; [intros ([u q] & [= <- <-] & I); eauto|intros (u & -> & I); exists (u, p); auto]. }
  destruct c; [exists (map (fun x => (false :: fst x, snd x)) M ++ map (fun x => (true :: fst x, snd x)) L)|exists (map (fun x => (false :: fst x, snd x)) L ++ map (fun x => (true :: fst x, snd x)) M)]; (splits;
    [rewrite map_app, !map_map; reflexivity
    |apply sorted_app; auto; intros x y I J; apply in_map_iff in I as (x0 & <- & _); apply in_map_iff in J as (y0 & <- & _); apply sooner_head
    |intros t p; rewrite in_app_iff, !In1; cbn [negb]; split;
      [intros [(u & -> & I)|(u & -> & I)]; exists u; rewrite <- ?C, <- ?C'; auto|intros (u & [[-> I]|[-> I]]); [rewrite <- C in I|rewrite <- C' in I]; eauto]]).
Qed.
End Listing.
Lemma listing_map {P Q} (R : choices -> P -> Prop) (S : choices -> Q -> Prop) (f : P -> Q) l : (forall t q, S t q <-> exists p, q = f p /\ R t p) -> listing R l -> listing S (map f l).
Proof.
  intros H (L & <- & B & C). exists (map (fun x => (fst x, f (snd x))) L). splits.
  - rewrite !map_map. reflexivity.
  - revert B. apply sorted_map. auto.
  - intros t q. rewrite H, in_map_iff. split.
    + intros ([u p] & [= <- <-] & I). exists p. split; [reflexivity|]. now apply C.
    + intros (p & -> & I). exists (t, p). split; [reflexivity|]. now apply C.
Qed.
Lemma listing_bind {P Q} (R : choices -> P -> Prop) (S : P -> choices -> Q -> Prop) f l : listing R l -> (forall t p, R t p -> listing (S p) (f p)) ->
  listing (fun t q => exists t1 t2 p, t = t1 ++ t2 /\ R t1 p /\ S p t2 q) (flat_map f l).
Proof.
  intros (L & <- & B & C) F.
  assert (F' : forall t p, In (t, p) L -> listing (S p) (f p)) by (intros t p I; apply (F t p); now apply C).
  assert (G : exists M, map snd M = flat_map f (map snd L) /\ StronglySorted (fun x y => sooner (fst x) (fst y)) M /\ forall t q, In (t, q) M <-> exists t1 t2 p, t = t1 ++ t2 /\ In (t1, p) L /\ S p t2 q).
  { clear C F. induction B as [|[t p] L B IH H].
    - exists []. splits; [reflexivity|constructor|]. intros t q. split; [intros []|intros (? & ? & ? & _ & [] & _)].
    - destruct IH as (M & E & Ms & Mi); [intros u q I; apply (F' u q); now right|]. destruct (F' t p (or_introl eq_refl)) as (N & En & Ns & Ni).
      exists (map (fun x => (t ++ fst x, snd x)) N ++ M). splits.
      + cbn [map flat_map]. rewrite map_app, map_map. cbn [snd]. rewrite <- En. f_equal. exact E.
      + apply sorted_app; [|exact Ms|].
        * revert Ns. apply sorted_map. intros x y X. cbn [fst]. now apply sooner_app.
        * intros x [y q] I J. apply in_map_iff in I as ([u r] & <- & I). cbn [fst]. apply Mi in J as (t1 & t2 & p' & -> & J & _). rewrite Forall_forall in H. apply H in J. cbn [fst] in J. now apply sooner_ext.
      + intros u q. rewrite in_app_iff, Mi, in_map_iff. split.
        * intros [([v r] & [= <- <-] & I)|(t1 & t2 & p' & -> & I & X)].
          -- exists t, v, p. splits; [reflexivity|now left|]. now apply Ni.
          -- exists t1, t2, p'. splits; [reflexivity|now right|exact X].
        * intros (t1 & t2 & p' & -> & [I|I] & X); [injection I as <- <-; left; exists (t2, q); split; [reflexivity|]; now apply Ni|right; eauto 6]. }
  destruct G as (M & E & Ms & Mi). exists M. splits; auto. intros t q. rewrite Mi. split; intros (t1 & t2 & p & -> & I & X); exists t1, t2, p; splits; auto; now apply C.
Qed.
(** the first one *)
Lemma listing_first {P} (R : choices -> P -> Prop) a l : listing R (a :: l) -> exists t, R t a /\ forall t' p, R t' p -> (t', p) = (t, a) \/ sooner t t'.
Proof.
  intros ([|[t p] L] & E & B & C); [discriminate|]. cbn in E. injection E as E _. subst p. exists t. split; [apply C; now left|]. intros t' p' I. apply (proj2 (C t' p')) in I. destruct I as [I|I]; [left; congruence|right].
  inversion B as [|? ? _ F]; subst. rewrite Forall_forall in F. apply F in I. exact I.
Qed.
Lemma sorted_two {A} (R : A -> A -> Prop) l x y : StronglySorted R l -> In x l -> In y l -> x = y \/ R x y \/ R y x.
Proof.
  induction 1 as [|z l Hl IH F]; [intros []|]. rewrite Forall_forall in F. intros [->|I] [->|J]; auto.
Qed.
(** two of them *)
Lemma listing_two {P} (R : choices -> P -> Prop) l t p t' p' : listing R l -> R t p -> R t' p' -> (t, p) = (t', p') \/ sooner t t' \/ sooner t' t.
Proof. intros (L & _ & B & C) I J. apply C in I, J. destruct (sorted_two _ _ _ _ B I J) as [H|[H|H]]; auto. Qed.

(** * The engine *)
Section Engine.
Context (ci : bool) (b : bytes) (e : nat).
(** [takes] with the spans of the groups *)
Inductive trun : re -> nat -> caps -> nat -> caps -> choices -> Prop :=
| ur_eps i g : trun REps i g i g []
| ur_set s i g c : i < e -> nth_error b i = Some c -> in_set ci s c = true -> trun (RSet s) i g (S i) g []
| ur_look l i g : look_ok b l i = true -> trun (RLook l) i g i g []
| ur_cat x y i g k h j l t u : trun x i g k h t -> trun y k h j l u -> trun (RCat x y) i g j l (t ++ u)
| ur_left x y i g j h t : trun x i g j h t -> trun (RAlt x y) i g j h (false :: t)
| ur_right x y i g j h t : trun y i g j h t -> trun (RAlt x y) i g j h (true :: t)
| ur_rep lo hi gr x i g k h j l t u : trun_n lo x i g k h t -> trun_more (option_map (fun h => h - lo) hi) gr x k h j l u -> trun (RRep lo hi gr x) i g j l (t ++ u)
| ur_group n name x i g j h t : trun x i g j h t -> trun (RGroup n name x) i g j (set_cap h n (mkRange i j)) t
with trun_n : nat -> re -> nat -> caps -> nat -> caps -> choices -> Prop :=
| un_none x i g : trun_n 0 x i g i g []
| un_more n x i g k h j l t u : trun x i g k h t -> trun_n n x k h j l u -> trun_n (S n) x i g j l (t ++ u)
with trun_more : option nat -> bool -> re -> nat -> caps -> nat -> caps -> choices -> Prop :=
| um_full gr x i g : trun_more (Some 0) gr x i g i g []
| um_stop hi gr x i g : hi <> Some 0 -> trun_more hi gr x i g i g [gr]
| um_bounded n gr x i g k h j l t u : trun x i g k h t -> trun_more (Some n) gr x k h j l u -> trun_more (Some (S n)) gr x i g j l (negb gr :: t ++ u)
| um_more gr x i g k h j l t u : trun x i g k h t -> i < k -> trun_more None gr x k h j l u -> trun_more None gr x i g j l (negb gr :: t ++ u)
| um_empty gr x i g h t : trun x i g i h t -> trun_more None gr x i g i h (negb gr :: t).
Scheme trun_mut := Induction for trun Sort Prop with trun_n_mut := Induction for trun_n Sort Prop with trun_more_mut := Induction for trun_more Sort Prop.
Combined Scheme trun_mutind from trun_mut, trun_n_mut, trun_more_mut.
Scheme takes_mut := Induction for takes Sort Prop with takes_n_mut := Induction for takes_n Sort Prop with takes_more_mut := Induction for takes_more Sort Prop.
Combined Scheme takes_mutind from takes_mut, takes_n_mut, takes_more_mut.
Notation takes := (takes ci b e).
Notation takes_n := (takes_n ci b e).
Notation takes_more := (takes_more ci b e).
Lemma trun_takes : (forall r i g j h t, trun r i g j h t -> takes r i j t) /\ (forall n r i g j h t, trun_n n r i g j h t -> takes_n n r i j t) /\
  (forall m gr r i g j h t, trun_more m gr r i g j h t -> takes_more m gr r i j t).
Proof. apply trun_mutind; intros; try (econstructor; eauto; fail). Qed.
Lemma takes_trun : (forall r i j t, takes r i j t -> forall g, exists h, trun r i g j h t) /\ (forall n r i j t, takes_n n r i j t -> forall g, exists h, trun_n n r i g j h t) /\
  (forall m gr r i j t, takes_more m gr r i j t -> forall g, exists h, trun_more m gr r i g j h t).
Proof.
  assert (X := takes_mutind ci b e (fun r i j t _ => forall g, exists h, trun r i g j h t) (fun n r i j t _ => forall g, exists h, trun_n n r i g j h t) (fun m gr r i j t _ => forall g, exists h, trun_more m gr r i g j h t)).
  apply X; clear X.
  - intros. eexists. constructor.
  - intros. eexists. econstructor; eauto.
  - intros. eexists. now constructor.
  - intros x y i k j t u _ H1 _ H2 g. destruct (H1 g) as [h1 X1]. destruct (H2 h1) as [h2 X2]. eexists. eapply ur_cat; eauto.
  - intros x y i j t _ H g. destruct (H g) as [h X]. eexists. eapply ur_left; eauto.
  - intros x y i j t _ H g. destruct (H g) as [h X]. eexists. eapply ur_right; eauto.
  - intros lo hi gr x i k j t u _ H1 _ H2 g. destruct (H1 g) as [h1 X1]. destruct (H2 h1) as [h2 X2]. eexists. eapply ur_rep; eauto.
  - intros n name x i j t _ H g. destruct (H g) as [h X]. eexists. eapply ur_group; eauto.
  - intros. eexists. constructor.
  - intros n x i k j t u _ H1 _ H2 g. destruct (H1 g) as [h1 X1]. destruct (H2 h1) as [h2 X2]. eexists. eapply un_more; eauto.
  - intros. eexists. constructor.
  - intros. eexists. now constructor.
  - intros n gr x i k j t u _ H1 _ H2 g. destruct (H1 g) as [h1 X1]. destruct (H2 h1) as [h2 X2]. eexists. eapply um_bounded; eauto.
  - intros gr x i k j t u _ H1 L _ H2 g. destruct (H1 g) as [h1 X1]. destruct (H2 h1) as [h2 X2]. eexists. eapply um_more; eauto.
  - intros gr x i t _ H g. destruct (H g) as [h X]. eexists. eapply um_empty; eauto.
Qed.
(** erasing the choices *)
Lemma trun_run : (forall r i g j h t, trun r i g j h t -> proper r -> run ci b e r i g j h) /\ (forall n r i g j h t, trun_n n r i g j h t -> proper r -> run_n ci b e r n i g j h) /\
  (forall m gr r i g j h t, trun_more m gr r i g j h t -> proper r -> exists n, (forall k, m = Some k -> n <= k) /\ run_n ci b e r n i g j h).
Proof.
  apply trun_mutind.
  - intros. constructor.
  - intros. econstructor; eauto.
  - intros. now constructor.
  - intros x y i g k h j l t u _ H1 _ H2 P. inversion P; subst. eapply ru_cat; eauto.
  - intros x y i g j h t _ H P. inversion P; subst. apply ru_left; auto.
  - intros x y i g j h t _ H P. inversion P; subst. apply ru_right; auto.
  - intros lo hi gr x i g k h j l t u _ H1 _ H2 P. inversion P as [| | | | |? ? ? ? Lh Px|]; subst. destruct (H2 Px) as (n & Ln & Rn). apply ru_rep with (lo + n); [lia| |eapply run_n_app; eauto].
    intros m ->. cbn [option_map] in Ln. specialize (Ln _ eq_refl). specialize (Lh _ eq_refl). lia.
  - intros n name x i g j h t _ H P. inversion P; subst. apply ru_group; auto.
  - intros. constructor.
  - intros n x i g k h j l t u _ H1 _ H2 P. eapply rn_more; eauto.
  - intros gr x i g P. exists 0. split; [lia|constructor].
  - intros hi gr x i g N P. exists 0. split; [lia|constructor].
  - intros n gr x i g k h j l t u _ H1 _ H2 P. destruct (H2 P) as (m & Lm & Rm). exists (S m). split; [intros q [= <-]; specialize (Lm _ eq_refl); lia|]. eapply rn_more; eauto.
  - intros gr x i g k h j l t u _ H1 _ _ H2 P. destruct (H2 P) as (m & Lm & Rm). exists (S m). split; [discriminate|]. eapply rn_more; eauto.
  - intros gr x i g h t _ H P. exists 1. split; [discriminate|]. eapply rn_more; [now apply H|constructor].
Qed.
Lemma trun_bounds r i g j h t : proper r -> trun r i g j h t -> i <= j /\ (i <= e -> j <= e).
Proof. intros P H. apply (proj1 trun_run) in H; [|exact P]. apply (proj1 (run_lang ci b e)) in H. now apply (proj1 (lang_bounds ci b e)) in H. Qed.
(** The list of the engine *)
Notation R r i g := (fun t p => trun r i g (fst p) (snd p) t).
Lemma power_listing x n : proper x -> (forall i g, i <= e -> listing (R x i g) (ends ci b e x i g)) -> forall i g, i <= e -> listing (fun t p => trun_n n x i g (fst p) (snd p) t) (power (ends ci b e x) n i g).
Proof.
  intros Px H. induction n as [|n IH]; intros i g Li; cbn [power].
  - apply listing_one. intros t [j h]. cbn [fst snd]. split; [intros X; inversion X; subst; auto|intros [-> [= -> ->]]; constructor].
  - eapply listing_iff; [|apply (listing_bind (R x i g) (fun p t q => trun_n n x (fst p) (snd p) (fst q) (snd q) t) (fun p => power (ends ci b e x) n (fst p) (snd p))); [now apply H|]].
    + intros t [j l]. cbn [fst snd]. split.
      * intros (t1 & t2 & [k h] & -> & A & B). eapply un_more; eauto.
      * intros X. inversion X; subst. do 2 eexists. exists (k, h). auto.
    + intros t [k h] A. cbn [fst snd] in *. apply IH. eapply trun_bounds; eauto.
Qed.
Lemma upto_listing x gr n : proper x -> (forall i g, i <= e -> listing (R x i g) (ends ci b e x i g)) -> forall i g, i <= e -> listing (fun t p => trun_more (Some n) gr x i g (fst p) (snd p) t) (upto (ends ci b e x) n gr i g).
Proof.
  intros Px H. induction n as [|n IH]; intros i g Li; cbn [upto].
  - apply listing_one. intros t [j h]. cbn [fst snd]. split; [intros X; inversion X; subst; [auto|congruence]|intros [-> [= -> ->]]; constructor].
  - assert (M : listing (fun t q => exists t1 t2 p, t = t1 ++ t2 /\ R x i g t1 p /\ trun_more (Some n) gr x (fst p) (snd p) (fst q) (snd q) t2) (flat_map (fun p => upto (ends ci b e x) n gr (fst p) (snd p)) (ends ci b e x i g))).
    { apply (listing_bind (R x i g) (fun p t q => trun_more (Some n) gr x (fst p) (snd p) (fst q) (snd q) t)); [now apply H|]. intros t [k h] A. cbn [fst snd] in *. apply IH. eapply trun_bounds; eauto. }
    pose proof (listing_alt gr (fun t p => t = [] /\ p = (i, g)) _ [(i, g)] _ (listing_one (fun t p => t = [] /\ p = (i, g)) (i, g) (fun t p => iff_refl _)) M) as A. cbv beta in A.
    assert (Q : forall t p, (exists u, (t = gr :: u /\ u = [] /\ p = (i, g)) \/ (t = negb gr :: u /\ exists t1 t2 q, u = t1 ++ t2 /\ trun x i g (fst q) (snd q) t1 /\ trun_more (Some n) gr x (fst q) (snd q) (fst p) (snd p) t2)) <->
      trun_more (Some (S n)) gr x i g (fst p) (snd p) t).
    { intros t [j l]. cbn [fst snd]. split.
      - intros (u & [(-> & -> & [= -> ->])|(-> & t1 & t2 & [k h] & -> & A1 & A2)]); [now apply um_stop|]. eapply um_bounded; eauto.
      - intros X. inversion X; subst; [exists []; auto|]. eexists. right. split; [reflexivity|]. do 2 eexists. exists (k, h). auto. }
    destruct gr; (eapply listing_iff; [exact Q|exact A]).
Qed.
Lemma star_listing x gr n : proper x -> (forall i g, i <= e -> listing (R x i g) (ends ci b e x i g)) -> forall i g, i <= e -> e - i < n -> listing (fun t p => trun_more None gr x i g (fst p) (snd p) t) (star (ends ci b e x) n gr i g).
Proof.
  intros Px H. induction n as [|n IH]; intros i g Li Ln; [lia|]. cbn [star].
  assert (M : listing (fun t q => exists t1 t2 p, t = t1 ++ t2 /\ R x i g t1 p /\ (if fst p =? i then t2 = [] /\ q = p else trun_more None gr x (fst p) (snd p) (fst q) (snd q) t2))
    (flat_map (fun p => if fst p =? i then [p] else star (ends ci b e x) n gr (fst p) (snd p)) (ends ci b e x i g))).
  { apply (listing_bind (R x i g) (fun p t q => if fst p =? i then t = [] /\ q = p else trun_more None gr x (fst p) (snd p) (fst q) (snd q) t)); [now apply H|]. intros t [k h] A. cbn [fst snd] in *.
    destruct (Nat.eqb_spec k i) as [->|N]; [now apply listing_one|]. apply trun_bounds in A; [|exact Px]. apply IH; lia. }
  pose proof (listing_alt gr (fun t p => t = [] /\ p = (i, g)) _ [(i, g)] _ (listing_one (fun t p => t = [] /\ p = (i, g)) (i, g) (fun t p => iff_refl _)) M) as A. cbv beta in A.
  assert (Q : forall t p, (exists u, (t = gr :: u /\ u = [] /\ p = (i, g)) \/ (t = negb gr :: u /\ exists t1 t2 q, u = t1 ++ t2 /\ trun x i g (fst q) (snd q) t1 /\ (if fst q =? i then t2 = [] /\ p = q else trun_more None gr x (fst q) (snd q) (fst p) (snd p) t2))) <->
    trun_more None gr x i g (fst p) (snd p) t).
  { intros t [j l]. cbn [fst snd]. split.
    - intros (u & [(-> & -> & [= -> ->])|(-> & t1 & t2 & [k h] & -> & A1 & A2)]); [now apply um_stop|]. cbn [fst snd] in *. destruct (Nat.eqb_spec k i) as [->|N].
      + destruct A2 as [-> [= -> ->]]. rewrite app_nil_r. now apply um_empty.
      + eapply um_more; eauto. apply trun_bounds in A1; [lia|exact Px].
    - intros X. inversion X; subst; [exists []; auto| |].
      + eexists. right. split; [reflexivity|]. do 2 eexists. exists (k, h). cbn [fst snd]. splits; eauto. destruct (Nat.eqb_spec k i); [lia|assumption].
      + eexists. right. split; [reflexivity|]. exists t0, []. exists (j, l). cbn [fst snd]. rewrite app_nil_r, Nat.eqb_refl. auto. }
  destruct gr; (eapply listing_iff; [exact Q|exact A]).
Qed.
Lemma ends_listing r : proper r -> forall i g, i <= e -> listing (R r i g) (ends ci b e r i g).
Proof.
  induction r as [|s|l|x IHx y IHy|x IHx y IHy|lo hi gr x IHx|n name x IHx]; intros Pr i g Li; cbn [ends].
  - apply listing_one. intros t [j h]. cbn [fst snd]. split; [intros X; inversion X; subst; auto|intros [-> [= -> ->]]; constructor].
  - destruct (i <? e) eqn:Lt; cbn [andb]; [destruct (nth_error b i) as [c|] eqn:N; [destruct (in_set ci s c) eqn:I|]|].
    1: apply listing_one; intros t [j h]; cbn [fst snd]; split; [intros X; inversion X; subst; auto|intros [-> [= -> ->]]; econstructor; eauto; now apply Nat.ltb_lt].
    all: apply listing_nil; intros t [j h] X; cbn [fst snd] in X; inversion X; subst; try congruence; match goal with H : _ < e |- _ => apply Nat.ltb_lt in H end; congruence.
  - destruct (look_ok b l i) eqn:Lo; [apply listing_one|apply listing_nil].
    + intros t [j h]. cbn [fst snd]. split; [intros X; inversion X; subst; auto|intros [-> [= -> ->]]; now constructor].
    + intros t [j h] X. cbn [fst snd] in X. inversion X; subst. congruence.
  - inversion Pr; subst. eapply listing_iff; [|apply (listing_bind (R x i g) (fun p => R y (fst p) (snd p)) (fun p => ends ci b e y (fst p) (snd p))); [now apply IHx|]].
    + intros t [j l]. cbn [fst snd]. split.
      * intros (t1 & t2 & [k h] & -> & A & B). eapply ur_cat; eauto.
      * intros X. inversion X; subst. do 2 eexists. exists (k, h). auto.
    + intros t [k h] A. cbn [fst snd] in *. apply IHy; [assumption|]. refine (proj2 (trun_bounds x i g k h t _ A) Li); assumption.
  - inversion Pr; subst. eapply listing_iff; [|exact (listing_alt false (R x i g) (R y i g) _ _ (IHx ltac:(assumption) i g Li) (IHy ltac:(assumption) i g Li))].
    intros t [j l]. cbn [fst snd]. split.
    + intros (u & [[-> A]|[-> A]]); [now apply ur_left|now apply ur_right].
    + intros X. inversion X; subst; eauto.
  - inversion Pr as [| | | | |? ? ? ? Lh Px|]; subst. specialize (IHx Px).
    eapply listing_iff; [|apply (listing_bind (fun t p => trun_n lo x i g (fst p) (snd p) t) (fun p t q => trun_more (option_map (fun h => h - lo) hi) gr x (fst p) (snd p) (fst q) (snd q) t)); [now apply power_listing|]].
    + intros t [j l]. cbn [fst snd]. split.
      * intros (t1 & t2 & [k h] & -> & A & B). eapply ur_rep; eauto.
      * intros X. inversion X; subst. do 2 eexists. exists (k, h). auto.
    + intros t [k h] A. cbn [fst snd] in *. assert (Lk : k <= e).
      { apply (proj1 (proj2 trun_run)) in A; [|exact Px]. apply (proj2 (run_lang ci b e)) in A. apply (proj2 (lang_bounds ci b e)) in A. lia. }
      destruct hi as [m|]; cbn [option_map]; [now apply upto_listing|apply star_listing; auto; lia].
  - inversion Pr; subst. eapply listing_map; [|apply (IHx ltac:(assumption) i g Li)]. intros t [j l]. cbn [fst snd]. split.
    + intros X. inversion X; subst. exists (j, h). auto.
    + intros ([k h] & [= -> ->] & A). cbn [fst snd] in *. now constructor.
Qed.
End Engine.
