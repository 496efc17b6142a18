(** The matcher of [ascii_engine] follows the language. *)
From Coq Require Import String.
From Verif Require Import Base Text_Model Lit_Model Regex_Model Regex_Spec.
Open Scope list_scope.
Ltac splits := repeat match goal with |- _ /\ _ => split end.

Section P.
Context (ci : bool) (b : bytes) (e : nat).
Notation ends := (ends ci b e).
Notation lang := (lang ci b e).
Notation lang_n := (lang_n ci b e).
Notation run := (run ci b e).
Notation run_n := (run_n ci b e).

Lemma run_n_app x n m i g k h j l : run_n x n i g k h -> run_n x m k h j l -> run_n x (n + m) i g j l.
Proof. induction 1 as [|x n i g k h j0 l0 H H0 IH]; intros R; [exact R|]. cbn. eapply rn_more; eauto. Qed.
Lemma power_run x (F : forall i g j h, In (j, h) (ends x i g) -> run x i g j h) n : forall i g j h, In (j, h) (power (ends x) n i g) -> run_n x n i g j h.
Proof.
  induction n as [|n IH]; intros i g j h; cbn [power].
  - intros [[= <- <-]|[]]. constructor.
  - intros H. apply in_flat_map in H as ([k l] & A & B). eapply rn_more; [apply F; eauto|now apply IH].
Qed.
Lemma star_run x (F : forall i g j h, In (j, h) (ends x i g) -> run x i g j h) gr n : forall i g j h, In (j, h) (star (ends x) n gr i g) -> exists m, run_n x m i g j h.
Proof.
  induction n as [|n IH]; intros i g j h; cbn [star].
  - intros [[= <- <-]|[]]. exists 0. constructor.
  - intros H.
    assert (C : (j, h) = (i, g) \/ In (j, h) (flat_map (fun p => if fst p =? i then [p] else star (ends x) n gr (fst p) (snd p)) (ends x i g))).
    { destruct gr; [apply in_app_or in H as [H|[H|[]]]|destruct H as [H|H]]; auto. }
    destruct C as [[= <- <-]|C]; [exists 0; constructor|]. apply in_flat_map in C as ([k l] & A & B). cbn [fst snd] in B.
    destruct (k =? i).
    + destruct B as [[= <- <-]|[]]. exists 1. eapply rn_more; [apply F; eauto|constructor].
    + apply IH in B as (m & B). exists (S m). eapply rn_more; [apply F; eauto|exact B].
Qed.
Lemma upto_run x (F : forall i g j h, In (j, h) (ends x i g) -> run x i g j h) gr n : forall i g j h, In (j, h) (upto (ends x) n gr i g) -> exists m, m <= n /\ run_n x m i g j h.
Proof.
  induction n as [|n IH]; intros i g j h; cbn [upto].
  - intros [[= <- <-]|[]]. exists 0. split; [lia|constructor].
  - intros H.
    assert (C : (j, h) = (i, g) \/ In (j, h) (flat_map (fun p => upto (ends x) n gr (fst p) (snd p)) (ends x i g))).
    { destruct gr; [apply in_app_or in H as [H|[H|[]]]|destruct H as [H|H]]; auto. }
    destruct C as [[= <- <-]|C]; [exists 0; split; [lia|constructor]|]. apply in_flat_map in C as ([k l] & A & B). cbn [fst snd] in B.
    apply IH in B as (m & L & B). exists (S m). split; [lia|]. eapply rn_more; [apply F; eauto|exact B].
Qed.
Lemma ends_run r : proper r -> forall i g j h, In (j, h) (ends r i g) -> run r i g j h.
Proof.
  induction 1 as [|s|l|x y Px IHx Py IHy|x y Px IHx Py IHy|lo hi gr x L Px IHx|k n x Px IHx]; intros i g j h; cbn [Regex_Model.ends].
  - intros [[= <- <-]|[]]. constructor.
  - destruct (_ && _)%bool eqn:E; [|easy]. intros [[= <- <-]|[]]. apply andb_prop in E as [E1 E2]. apply Nat.ltb_lt in E1.
    destruct (nth_error b i) as [c|] eqn:N; [|discriminate]. now apply ru_set with c.
  - destruct (look_ok b l i) eqn:E; [|easy]. intros [[= <- <-]|[]]. now constructor.
  - intros H. apply in_flat_map in H as ([k l] & A & B). eapply ru_cat; eauto.
  - intros H. apply in_app_or in H as [H|H]; [apply ru_left|apply ru_right]; auto.
  - intros H. apply in_flat_map in H as ([k l] & A & B). cbn [fst snd] in B. apply (power_run x IHx) in A. destruct hi as [m|].
    + apply (upto_run x IHx) in B as (q & Q & B). apply ru_rep with (lo + q); [lia| |eapply run_n_app; eauto].
      intros m' [= <-]. specialize (L _ eq_refl). lia.
    + apply (star_run x IHx) in B as (q & B). apply ru_rep with (lo + q); [lia|discriminate|eapply run_n_app; eauto].
  - intros H. apply in_map_iff in H as ([k' l] & [= <- <-] & A). constructor. auto.
Qed.
Lemma run_lang : (forall r i g j h, run r i g j h -> lang r i j) /\ (forall r n i g j h, run_n r n i g j h -> lang_n r n i j).
Proof.
  apply run_mutind; intros; try (now constructor).
  - now apply lg_set with c.
  - now apply lg_cat with k.
  - now apply lg_rep with n.
  - now apply ln_more with k.
Qed.
Lemma lang_run : (forall r i j, lang r i j -> forall g, exists h, run r i g j h) /\ (forall r n i j, lang_n r n i j -> forall g, exists h, run_n r n i g j h).
Proof.
  apply lang_mutind; intros.
  - exists g. constructor.
  - exists g. now apply ru_set with c.
  - exists g. now constructor.
  - destruct (H g) as (h & A). destruct (H0 h) as (l3 & B). exists l3. now apply ru_cat with k h.
  - destruct (H g) as (h & A). exists h. now apply ru_left.
  - destruct (H g) as (h & A). exists h. now apply ru_right.
  - destruct (H g0) as (h & A). exists h. now apply ru_rep with n.
  - destruct (H g) as (h & A). eexists. apply ru_group. exact A.
  - exists g. constructor.
  - destruct (H g) as (h & A). destruct (H0 h) as (l3 & B). exists l3. now apply rn_more with k h.
Qed.
Lemma lang_bounds : (forall r i j, lang r i j -> i <= j /\ (i <= e -> j <= e)) /\ (forall r n i j, lang_n r n i j -> i <= j /\ (i <= e -> j <= e)).
Proof. apply lang_mutind; intros; lia. Qed.

(** completeness *)
Lemma lang_0 x i j : lang_n x 0 i j -> j = i.
Proof. now inversion 1. Qed.
Lemma lang_S x n i j : lang_n x (S n) i j -> exists k, lang x i k /\ lang_n x n k j.
Proof. inversion 1; subst; eauto. Qed.
Lemma power_complete x (F : forall i j, lang x i j -> forall g, exists h, In (j, h) (ends x i g)) n : forall i j g, lang_n x n i j -> exists h, In (j, h) (power (ends x) n i g).
Proof.
  induction n as [|n IH]; intros i j g H; cbn [power].
  - apply lang_0 in H as ->. exists g. now left.
  - apply lang_S in H as (k & H1 & H5). destruct (F _ _ H1 g) as (h & A). destruct (IH _ _ h H5) as (l & B). exists l. apply in_flat_map. now exists (k, h).
Qed.
Lemma upto_complete x (F : forall i j, lang x i j -> forall g, exists h, In (j, h) (ends x i g)) gr n : forall m i j g, m <= n -> lang_n x m i j -> exists h, In (j, h) (upto (ends x) n gr i g).
Proof.
  induction n as [|n IH]; intros m i j g L H; cbn [upto].
  - replace m with 0 in H by lia. apply lang_0 in H as ->. exists g. now left.
  - assert (C : forall p, In p (flat_map (fun p => upto (ends x) n gr (fst p) (snd p)) (ends x i g)) \/ p = (i, g) ->
      In p (if gr then flat_map (fun p => upto (ends x) n gr (fst p) (snd p)) (ends x i g) ++ [(i, g)] else (i, g) :: flat_map (fun p => upto (ends x) n gr (fst p) (snd p)) (ends x i g))).
    { intros p [P| ->]; destruct gr; first [apply in_or_app; left; exact P|now right|apply in_or_app; right; now left|now left]. }
    destruct m as [|m]; [apply lang_0 in H as ->; exists g; apply C; now right|]. apply lang_S in H as (k & H0 & H1).
    destruct (F _ _ H0 g) as (h & A). destruct (IH m k j h) as (l & B); [lia|easy|]. exists l. apply C. left. apply in_flat_map. now exists (k, h).
Qed.
(** drop the empty iterations *)
Lemma lang_n_solid x : forall n i j, lang_n x n i j -> exists m, lang_n x m i j /\ m <= n /\ (m <= j - i).
Proof.
  induction n as [|n IH]; intros i j H.
  - apply lang_0 in H as ->. exists 0. splits; [constructor|lia..].
  - apply lang_S in H as (k & H1 & H5). destruct (IH _ _ H5) as (m & A & B & C). pose proof (proj1 lang_bounds _ _ _ H1) as [L _]. pose proof (proj2 lang_bounds _ _ _ _ A) as [L2 _].
    destruct (Nat.eq_dec k i) as [->|D]; [exists m; splits; auto|]. exists (S m). splits; [now apply ln_more with k|lia..].
Qed.
Lemma star_complete x (F : forall i j, lang x i j -> forall g, exists h, In (j, h) (ends x i g)) gr n : forall i j m g, lang_n x m i j -> j - i <= n -> exists h, In (j, h) (star (ends x) n gr i g).
Proof.
  induction n as [|n IH]; intros i j m g H L; cbn [star].
  - apply lang_n_solid in H as (q & A & _ & C). replace q with 0 in A by lia. apply lang_0 in A as ->. exists g. now left.
  - set (more := flat_map (fun p => if fst p =? i then [p] else star (ends x) n gr (fst p) (snd p)) (ends x i g)).
    assert (C : forall p, In p more \/ p = (i, g) -> In p (if gr then more ++ [(i, g)] else (i, g) :: more)).
    { intros p [P| ->]; destruct gr; first [apply in_or_app; left; exact P|now right|apply in_or_app; right; now left|now left]. }
    revert H. induction m as [|m IHm]; intros H; [apply lang_0 in H as ->; exists g; apply C; now right|]. apply lang_S in H as (k & H1 & H5).
    destruct (Nat.eq_dec k i) as [->|D]; [now apply IHm|].
    destruct (F _ _ H1 g) as (h & A). pose proof (proj1 lang_bounds _ _ _ H1) as [L1 _].
    destruct (IH k j m h H5) as (l & B); [lia|]. exists l. apply C. left. apply in_flat_map. exists (k, h). split; [easy|]. cbn [fst snd].
    apply Nat.eqb_neq in D. now rewrite D.
Qed.
Lemma lang_n_split x n m : forall i j, lang_n x (n + m) i j -> exists k, lang_n x n i k /\ lang_n x m k j.
Proof.
  induction n as [|n IH]; intros i j H; [exists i; split; [constructor|exact H]|].
  cbn in H. apply lang_S in H as (k & H1 & H5). destruct (IH _ _ H5) as (k' & A & B). exists k'. split; [now apply ln_more with k|easy].
Qed.
Lemma lang_ends r : forall i j, lang r i j -> i <= e -> forall g, exists h, In (j, h) (ends r i g).
Proof.
  assert (G : forall i j, lang r i j -> forall g, exists h, In (j, h) (ends r i g)); [|auto].
  induction r as [|s|l|x IHx y IHy|x IHx y IHy|lo hi gr x IHx|k n x IHx]; intros i j H g; cbn [Regex_Model.ends].
  - inversion H; subst. exists g. now left.
  - inversion H as [|? ? c L N I| | | | | |]; subst. apply Nat.ltb_lt in L. rewrite L, N, I. exists g. now left.
  - inversion H as [| |? ? I| | | | |]; subst. rewrite I. exists g. now left.
  - inversion H as [| | |? ? ? k ? A B| | | |]; subst. destruct (IHx _ _ A g) as (h & P). destruct (IHy _ _ B h) as (q & Q). exists q. apply in_flat_map. now exists (k, h).
  - inversion H as [| | | |? ? ? ? A|? ? ? ? A| |]; subst; [destruct (IHx _ _ A g) as (h & P)|destruct (IHy _ _ A g) as (h & P)]; exists h; apply in_or_app; auto.
  - inversion H as [| | | | | |? ? ? ? n ? ? L Hi N|]; subst. replace n with (lo + (n - lo)) in N by lia. apply lang_n_split in N as (k & A & B).
    destruct (power_complete x IHx lo _ _ g A) as (h & P). destruct hi as [m|].
    + destruct (upto_complete x IHx gr (m - lo) (n - lo) k j h) as (q & Q); [specialize (Hi _ eq_refl); lia|easy|]. exists q. apply in_flat_map. now exists (k, h).
    + destruct (Nat.le_gt_cases j e) as [J|J].
      * destruct (star_complete x IHx gr (S (e - k)) k j (n - lo) h B) as (q & Q); [lia|]. exists q. apply in_flat_map. now exists (k, h).
      * destruct (Nat.le_gt_cases k e) as [K|K]; [pose proof (proj2 lang_bounds _ _ _ _ B) as [_ X]; specialize (X K); lia|].
        assert (E : j = k). { clear - B K. remember (n - lo) as q. clear Heqq. revert k K B. induction q as [|q IH]; intros k K B; inversion B; subst; [easy|].
          assert (k0 = k). { assert (X : forall r i j, lang r i j -> e < i -> i = j) by (assert (Y : (forall r i j, lang r i j -> e < i -> i = j) /\ (forall r n i j, lang_n r n i j -> e < i -> i = j)); [apply lang_mutind; intros; try lia|apply Y]).
            symmetry. eapply X; eauto. } subst. eauto. }
        subst. destruct (star_complete x IHx gr (S (e - k)) k k 0 h) as (q & Q); [constructor|lia|]. exists q. apply in_flat_map. now exists (k, h).
  - inversion H; subst. match goal with A : lang x i j |- _ => destruct (IHx _ _ A g) as (h & P) end. exists (set_cap h k (mkRange i j)). apply in_map_iff. now exists (j, h).
Qed.
End P.

(** * Groups *)
Fixpoint group_of (r : re) (k : nat) : Prop :=
  match r with
  | RCat x y | RAlt x y => group_of x k \/ group_of y k
  | RRep _ _ _ x => group_of x k
  | RGroup k' _ x => k = k' \/ group_of x k
  | _ => False
  end.
Lemma run_groups ci b e : (forall r i g j h, run ci b e r i g j h -> forall k, ~ group_of r k -> h k = g k) /\
  (forall r n i g j h, run_n ci b e r n i g j h -> forall k, ~ group_of r k -> h k = g k).
Proof.
  apply run_mutind; intros; cbn [group_of] in *; auto.
  - rewrite H0, H; tauto.
  - unfold set_cap. destruct (Nat.eqb_spec k0 k); [subst; tauto|]. apply H. tauto.
  - rewrite H0, H; tauto.
Qed.
(** a group lies in the match *)
Lemma run_inside ci b e : (forall r i g j h, run ci b e r i g j h -> i <= j /\ forall k c, h k = Some c -> g k = Some c \/ (i <= rstart c /\ rstart c <= rend c /\ rend c <= j)) /\
  (forall r n i g j h, run_n ci b e r n i g j h -> i <= j /\ forall k c, h k = Some c -> g k = Some c \/ (i <= rstart c /\ rstart c <= rend c /\ rend c <= j)).
Proof.
  apply run_mutind; intros; try (now split; auto); try (split; [lia|intros; now left]).
  - destruct H as [A B], H0 as [C D]. split; [lia|]. intros k0 c H. apply D in H as [H|H]; [apply B in H as [H|H]; [now left|right; lia]|right; lia].
  - destruct H as [A B]. split; [easy|]. intros k0 c. unfold set_cap. destruct (k0 =? k); [intros [= <-]; right; cbn; lia|apply B].
  - destruct H as [A B], H0 as [C D]. split; [lia|]. intros k0 c H. apply D in H as [H|H]; [apply B in H as [H|H]; [now left|right; lia]|right; lia].
Qed.

(** * The search *)
Section S.
Context (ci : bool) (b : bytes) (e : nat).
Lemma leftmost_re_spec n r : forall i, match leftmost_re ci b e n r i with
  | Some (k, j, g) => i <= k <= i + n /\ (exists t, ends ci b e r k no_caps = (j, g) :: t) /\ forall k', i <= k' < k -> ends ci b e r k' no_caps = []
  | None => forall k, i <= k <= i + n -> ends ci b e r k no_caps = []
  end.
Proof.
  induction n as [|n IH]; intros i; cbn [leftmost_re]; destruct (ends ci b e r i no_caps) as [|[j g] t] eqn:E.
  - intros k K. now replace k with i by lia.
  - splits; [lia|lia|eauto|lia].
  - specialize (IH (S i)). destruct (leftmost_re ci b e n r (S i)) as [[[k j] g]|].
    + destruct IH as (A & B & C). splits; [lia|lia|easy|]. intros k' K. destruct (Nat.eq_dec k' i) as [->|]; [easy|]. apply C. lia.
    + intros k K. destruct (Nat.eq_dec k i) as [->|]; [easy|]. apply IH. lia.
  - splits; [lia|lia|eauto|lia].
Qed.
End S.

(** * Compiled expressions are proper *)
Lemma lex_count_le s lo hi r : lex_count s = Some (lo, hi, r) -> forall h, hi = Some h -> lo <= h.
Proof.
  unfold lex_count. destruct (take_while is_digit s) as [a s1]. destruct a; [discriminate|]. destruct s1 as [|c s1]; [discriminate|].
  destruct (N.eqb c 125); [intros [= <- <- _] h [= <-]; lia|]. destruct (N.eqb c 44); [|discriminate].
  destruct (take_while is_digit s1) as [d s2]. destruct s2 as [|f s2]; [discriminate|]. destruct (N.eqb f 125); [|discriminate].
  destruct d; [intros [= <- <- _]; discriminate|]. destruct (_ <=? _) eqn:L; [|discriminate]. apply Nat.leb_le in L. intros [= <- <- _] h [= <-]. exact L.
Qed.
Definition good_tok (t : rtok) : Prop := match t with KPost lo (Some h) _ => lo <= h | _ => True end.
Lemma lex_one_good c r t r' : lex_one c r = Some (t, r') -> good_tok t.
Proof.
  unfold lex_one.
  destruct (N.eqb c 92).
  { destruct r as [|d r1]; [discriminate|]. destruct (escaped_char d); [now intros [= <- _]|]. destruct (escaped_class d); [now intros [= <- _]|].
    destruct (escaped_not_class d); [now intros [= <- _]|]. destruct (escaped_look d); [now intros [= <- _]|discriminate]. }
  destruct (N.eqb c 46); [now intros [= <- _]|].
  destruct (N.eqb c 91). { destruct (lex_class r) as [[]|]; [now intros [= <- _]|discriminate]. }
  destruct (N.eqb c 40). { destruct (lex_open r) as [[]|]; [now intros [= <- _]|discriminate]. }
  destruct (N.eqb c 41); [now intros [= <- _]|]. destruct (N.eqb c 124); [now intros [= <- _]|].
  destruct (N.eqb c 94); [now intros [= <- _]|]. destruct (N.eqb c 36); [now intros [= <- _]|].
  destruct (N.eqb c 42). { destruct (lazy_mark r). now intros [= <- _]. }
  destruct (N.eqb c 43). { destruct (lazy_mark r). now intros [= <- _]. }
  destruct (N.eqb c 63). { destruct (lazy_mark r). intros [= <- _]. cbn. lia. }
  destruct (N.eqb c 123). { destruct (lex_count r) as [[[lo hi] r1]|] eqn:E; [|discriminate]. destruct (lazy_mark r1). intros [= <- _]. cbn. destruct hi; [|easy]. eapply lex_count_le; eauto. }
  now intros [= <- _].
Qed.
Lemma lex_good fuel : forall s ts, lex fuel s = Some ts -> Forall good_tok ts.
Proof.
  induction fuel as [|k IH]; intros [|c r] ts; cbn [lex]; try discriminate; try (intros [= <-]; constructor).
  destruct (lex_one c r) as [[t r']|] eqn:E; [|discriminate]. destruct (lex k r') as [ts'|] eqn:F; [|discriminate]. intros [= <-].
  constructor; [eapply lex_one_good; eauto|eauto].
Qed.
Definition good_frame (f : frame) : Prop := Forall proper (f_alts f) /\ Forall proper (f_cur f).
Lemma cat_proper rs : Forall proper rs -> proper (cat rs).
Proof. induction 1; cbn; constructor; auto. Qed.
Lemma alt_proper f : good_frame f -> proper (alt f).
Proof.
  intros [A B]. unfold alt. assert (C : proper (cat (rev (f_cur f)))) by (apply cat_proper; now apply Forall_rev).
  revert C. generalize (cat (rev (f_cur f))). induction A as [|a l Pa Pl IH]; intros r C; [exact C|]. cbn. apply IH. now constructor.
Qed.
Lemma step_good n fs t n' fs' : Forall good_frame fs -> good_tok t -> step (n, fs) t = Some (n', fs') -> Forall good_frame fs'.
Proof.
  intros F T. cbn [step]. destruct F as [|f fs [Fa Fc] F]; [discriminate|].
  assert (P : forall r, proper r -> good_frame (push r f)) by (intros r R; split; [exact Fa|now constructor]).
  destruct t as [s|l|[g|]| | |lo hi g].
  - intros [= _ <-]. constructor; [apply P; constructor|easy].
  - intros [= _ <-]. constructor; [apply P; constructor|easy].
  - intros [= _ <-]. repeat constructor; auto.
  - intros [= _ <-]. repeat constructor; auto.
  - destruct F as [|h fs [Ha Hc] F]; [discriminate|]. intros [= _ <-]. constructor; [|easy]. split; [easy|]. cbn. constructor; [|easy].
    unfold close_frame. assert (proper (alt f)) by (now apply alt_proper). destruct (f_group f) as [[]|]; [now constructor|easy].
  - intros [= _ <-]. constructor; [|easy]. split; [|constructor]. cbn. constructor; [|easy]. apply cat_proper. now apply Forall_rev.
  - destruct f as [fg fa fc]. cbn in *. destruct Fc as [|r rs Pr Prs]; [discriminate|]. intros [= _ <-]. constructor; [|easy]. split; [easy|]. cbn. constructor; [|easy].
    constructor; [|easy]. intros h ->. exact T.
Qed.
Lemma steps_good ts : forall n fs n' fs', Forall good_frame fs -> Forall good_tok ts -> steps ts (n, fs) = Some (n', fs') -> Forall good_frame fs'.
Proof.
  induction ts as [|t ts IH]; intros n fs n' fs' F T; cbn [steps]; [now intros [= _ <-]|]. inversion T; subst.
  destruct (step (n, fs) t) as [[n1 fs1]|] eqn:E; [|discriminate]. apply IH; [|easy]. eapply step_good; eauto.
Qed.
Lemma build_proper ci s x : build ci s = Some x -> proper (x_re x) /\ x_ci x = ci.
Proof.
  unfold build, lex_all, parse_tokens. destruct (lex _ s) as [ts|] eqn:L; [|discriminate]. apply lex_good in L.
  destruct (steps ts _) as [[n fs]|] eqn:S0; [|discriminate]. destruct fs as [|f [|]]; try discriminate.
  destruct (distinct _); [|discriminate]. intros [= <-]. cbn. split; [|easy]. apply alt_proper.
  apply steps_good in S0; [now inversion S0|repeat constructor|easy].
Qed.
