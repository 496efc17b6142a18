(** [ascii_engine] is an engine the matchers can rely on; texts are compiled piece by piece. *)
From Coq Require Import String.
From Verif Require Import Base Text_Model Lit_Model Regex_Model Regex_Spec Regex_Proofs.
Open Scope list_scope.
Ltac splits := repeat match goal with |- _ /\ _ => split end.

(** The value of a search *)
Lemma search_some x b r a l : proper (x_re x) -> re_search x b r a = Some l ->
  exists i j g, l = Some (mkRange i j) :: map g (seq 1 (List.length (x_names x) - 1)) /\ rstart r <= i <= rend r /\
    (a = true -> i = rstart r) /\ run (x_ci x) b (rend r) (x_re x) i no_caps j g /\
    (exists t, ends (x_ci x) b (rend r) (x_re x) i no_caps = (j, g) :: t) /\
    (a = false -> forall k, rstart r <= k < i -> ends (x_ci x) b (rend r) (x_re x) k no_caps = []).
Proof.
  intros P. unfold re_search. destruct (Nat.ltb_spec (rend r) (rstart r)) as [|L]; [discriminate|].
  pose proof (leftmost_re_spec (x_ci x) b (rend r) (if a then 0 else rend r - rstart r) (x_re x) (rstart r)) as S0.
  destruct (leftmost_re _ _ _ _ _ _) as [[[i j] g]|]; [|discriminate]. destruct S0 as (A & (t & B) & C). intros [= <-].
  exists i, j, g. splits; auto; try (destruct a; lia); try (intros ->; lia); eauto.
  apply ends_run; [easy|]. rewrite B. now left.
Qed.
Lemma search_none x b r a : re_search x b r a = None -> forall k, rstart r <= k <= (if a then rstart r else rend r) -> k <= rend r ->
  ends (x_ci x) b (rend r) (x_re x) k no_caps = [].
Proof.
  unfold re_search. destruct (Nat.ltb_spec (rend r) (rstart r)) as [|L]; [intros _ k K K2; lia|].
  pose proof (leftmost_re_spec (x_ci x) b (rend r) (if a then 0 else rend r - rstart r) (x_re x) (rstart r)) as S0.
  destruct (leftmost_re _ _ _ _ _ _) as [[[i j] g]|]; [discriminate|]. intros _ k K K2. apply S0. destruct a; lia.
Qed.
Lemma nil_lang ci b e r i : ends ci b e r i no_caps = [] -> i <= e -> forall j, ~ lang ci b e r i j.
Proof. intros E L j H. apply lang_ends with (g := no_caps) in H as (h & H); [|easy]. now rewrite E in H. Qed.
(** Only compiled expressions are searched for. *)
Definition compiled_ok (x : compiled) : Prop := proper (x_re x) /\ x_names x <> [].
Lemma build_ok ci s x : build ci s = Some x -> compiled_ok x.
Proof.
  intros B. split; [now apply build_proper in B|]. unfold build in B. destruct (lex_all s) as [ts|]; [|discriminate].
  destruct (parse_tokens ts); [|discriminate]. injection B as <-. discriminate.
Qed.
Lemma search_anchored x b i e : re_search x b (mkRange i e) true =
  if e <? i then None else match ends (x_ci x) b e (x_re x) i no_caps with
  | (j, g) :: _ => Some (Some (mkRange i j) :: map g (seq 1 (List.length (x_names x) - 1)))
  | [] => None end.
Proof. unfold re_search. cbn [rstart rend]. destruct (e <? i); [easy|]. cbn [leftmost_re]. now destruct (ends _ _ _ _ _ _) as [|[]]. Qed.
Theorem ascii_engine_ok : engine_ok ascii_engine.
Proof.
  split; cbn [rx rx_search rx_groups ascii_engine]; intros x b; unfold made; cbn [rx_build ascii_engine].
  - intros r a l (ci & s & B) H. apply build_ok in B as [P N]. apply search_some in H as (i & j & g & -> & _); [|easy].
    cbn [List.length]. rewrite map_length, seq_length. destruct (x_names x); [easy|]. cbn. lia.
  - intros r a l (ci & s & B) H. apply build_ok in B as [P N]. apply search_some in H as (i & j & g & -> & L & A & R & _); [|easy].
    exists i, j. eexists. split; [reflexivity|]. destruct (proj1 (run_inside _ _ _) _ _ _ _ _ R) as [L1 In1].
    pose proof (proj1 (run_lang _ _ _) _ _ _ _ _ R) as Lg. apply (proj1 (lang_bounds _ _ _)) in Lg as [_ L2].
    splits; auto; try lia. intros c Hc. apply in_map_iff in Hc as (k & E & _). apply In1 in E as [E|E]; [discriminate|lia].
  - intros s e i j t (ci & s0 & B) H. apply build_ok in B as [P N]. apply search_some in H as (i' & j' & g & E & L & A & R & (tl & En) & Lm); [|easy].
    cbn [rstart rend] in *. injection E as -> -> ->. split.
    + rewrite search_anchored, En. destruct (Nat.ltb_spec e i'); [lia|easy].
    + intros k K. rewrite search_anchored, Lm by (easy || lia). now destruct (e <? k).
  - intros s e k (ci & s0 & B) H K. rewrite search_anchored. pose proof (search_none _ _ _ _ H) as Hn. cbn [rstart rend] in Hn. rewrite Hn by lia. now destruct (e <? k).
Qed.

(** * Escaped text *)
Lemma lex_fuel k : forall k' s ts, lex k s = Some ts -> k <= k' -> lex k' s = Some ts.
Proof.
  induction k as [|k IH]; intros k' s ts; destruct s as [|c r].
  - destruct k'; easy.
  - discriminate.
  - destruct k'; easy.
  - cbn [lex]. destruct (lex_one c r) as [[t r']|] eqn:E; [|discriminate]. destruct (lex k r') as [l|] eqn:F; [|discriminate]. intros [= <-] L.
    destruct k' as [|k']; [lia|]. cbn [lex]. rewrite E, (IH k' _ _ F) by lia. reflexivity.
Qed.
(** * Texts one after the other *)
Lemma take_while_app p s t a c r : take_while p s = (a, c :: r) -> take_while p (s ++ t) = (a, (c :: r) ++ t).
Proof.
  revert a. induction s as [|d s IH]; intros a; cbn [take_while]; [discriminate|]. cbn [app take_while]. destruct (p d).
  - destruct (take_while p s) as [a' b']. intros [= <- ->]. rewrite (IH a' eq_refl). reflexivity.
  - now intros [= <- <- <-].
Qed.
Lemma class_char_app s t x r : class_char s = Some (x, r) -> class_char (s ++ t) = Some (x, r ++ t).
Proof.
  destruct s as [|c s]; [discriminate|]. cbn [class_char app]. destruct (N.eqb c 92).
  - destruct s as [|d s]; [discriminate|]. cbn [app]. destruct (escaped_char d); [|discriminate]. cbn. now intros [= <- <-].
  - now intros [= <- <-].
Qed.
Lemma class_dash k acc : class_items k false [45%N] acc = None.
Proof. destruct k; reflexivity. Qed.
Lemma class_items_app t k : forall k' first s acc l r, class_items k first s acc = Some (l, r) -> k <= k' -> class_items k' first (s ++ t) acc = Some (l, r ++ t).
Proof.
  induction k as [|k IH]; intros k' first s acc l r; [discriminate|]. intros H L. destruct k' as [|k']; [lia|]. assert (Lk : k <= k') by lia.
  cbn [class_items] in *. destruct s as [|c s]; [discriminate|]. cbn [app].
  destruct (N.eqb c 93 && negb first)%bool; [now injection H as <- <-|].
  destruct (N.eqb c 91).
  { destruct s as [|d s]; [discriminate|]. cbn [app]. destruct (N.eqb d 58); [|discriminate].
    destruct (take_while is_letter s) as [name r2] eqn:T. destruct (posix name) as [p|] eqn:P; [|discriminate].
    destruct r2 as [|x [|y r3]]; try discriminate. rewrite (take_while_app _ _ t _ _ _ T). cbn [app]. rewrite P. destruct (N.eqb x 58 && N.eqb y 93)%bool; [|discriminate].
    eapply IH; eauto. }
  destruct s as [|d s]; [exfalso; revert H; cbn [class_char]; destruct (N.eqb c 92); discriminate|]. cbn [app].
  destruct (N.eqb c d && _)%bool; [discriminate|].
  destruct (if N.eqb c 92 then option_map (fun l0 => (l0, s)) (escaped_class d) else None) as [[p r']|] eqn:E1.
  { assert (E2 : (if N.eqb c 92 then option_map (fun l0 => (l0, s ++ t)) (escaped_class d) else None) = Some (p, r' ++ t)).
    { destruct (N.eqb c 92); [|discriminate]. destruct (escaped_class d); [|discriminate]. cbn in *. now injection E1 as <- <-. }
    rewrite E2. eapply IH; eauto. }
  assert (E2 : (if N.eqb c 92 then option_map (fun l0 => (l0, s ++ t)) (escaped_class d) else None) = None).
  { destruct (N.eqb c 92); [|easy]. now destruct (escaped_class d). }
  rewrite E2. change (c :: d :: s ++ t) with ((c :: d :: s) ++ t).
  destruct (class_char (c :: d :: s)) as [[x r1]|] eqn:C; [|discriminate]. rewrite (class_char_app _ t _ _ C). clear C.
  destruct r1 as [|f r2]; [discriminate|]. cbn [app].
  destruct r2 as [|y r2].
  - rewrite andb_false_r in H. destruct (N.eqb_spec f 45) as [->|F]; [now rewrite class_dash in H|]. cbn [andb]. eapply (IH k' false [f]); eauto.
  - cbn [app]. destruct (N.eqb f 45 && (negb (N.eqb y 93) && negb (N.eqb y 45)))%bool.
    + change (y :: r2 ++ t) with ((y :: r2) ++ t). destruct (class_char (y :: r2)) as [[z r3]|] eqn:C; [|discriminate].
      rewrite (class_char_app _ t _ _ C). destruct (x <=? z)%N; [|discriminate]. eapply IH; eauto.
    + eapply (IH k' false (f :: y :: r2)); eauto.
Qed.
Lemma lex_class_app s t x r : lex_class s = Some (x, r) -> lex_class (s ++ t) = Some (x, r ++ t).
Proof.
  unfold lex_class. intros H. destruct s as [|c s]; [discriminate|]. cbn [app]. destruct (N.eqb c 94).
  - destruct (class_items _ true s []) as [[l r']|] eqn:C; [|discriminate]. cbn in H. injection H as <- <-.
    rewrite (class_items_app t _ (S (List.length (s ++ t))) _ _ _ _ _ C) by (rewrite app_length; lia). reflexivity.
  - destruct (class_items _ true (c :: s) []) as [[l r']|] eqn:C; [|discriminate]. cbn in H. injection H as <- <-.
    change (c :: s ++ t) with ((c :: s) ++ t). rewrite (class_items_app t _ (S (List.length ((c :: s) ++ t))) _ _ _ _ _ C) by (rewrite app_length; lia). reflexivity.
Qed.
Lemma lex_count_app s t lo hi r : lex_count s = Some (lo, hi, r) -> lex_count (s ++ t) = Some (lo, hi, r ++ t).
Proof.
  unfold lex_count. destruct (take_while is_digit s) as [a s1] eqn:T. destruct a as [|d a]; [discriminate|]. destruct s1 as [|c s1]; [discriminate|].
  rewrite (take_while_app _ _ t _ _ _ T). cbn [app]. destruct (N.eqb c 125); [now intros [= <- <- <-]|]. destruct (N.eqb c 44); [|discriminate].
  destruct (take_while is_digit s1) as [b s2] eqn:T2. destruct s2 as [|f s2]; [discriminate|]. rewrite (take_while_app _ _ t _ _ _ T2). cbn [app].
  destruct (N.eqb f 125); [|discriminate]. destruct b; [now intros [= <- <- <-]|]. destruct (_ <=? _); [|discriminate]. now intros [= <- <- <-].
Qed.
Lemma lex_name_app s t n r : lex_name s = Some (n, r) -> lex_name (s ++ t) = Some (n, r ++ t).
Proof.
  unfold lex_name. destruct (take_while _ s) as [a s1] eqn:T. destruct a as [|d a]; [discriminate|]. destruct s1 as [|c s1]; [discriminate|].
  rewrite (take_while_app _ _ t _ _ _ T). cbn [app]. destruct (_ && _)%bool; [|discriminate]. now intros [= <- <-].
Qed.
(** [t] does not begin with '?' *)
Definition no_mark (t : str) : Prop := match t with c :: _ => N.eqb c 63 = false | [] => True end.
Lemma lex_open_app s t g r : no_mark t -> lex_open s = Some (g, r) -> lex_open (s ++ t) = Some (g, r ++ t).
Proof.
  intros M. unfold lex_open. destruct s as [|c s].
  - intros [= <- <-]. cbn [app]. destruct t as [|c t]; [easy|]. cbn in M. now rewrite M.
  - cbn [app]. destruct (N.eqb c 63); [|now intros [= <- <-]]. destruct s as [|d s]; [discriminate|]. cbn [app].
    destruct (N.eqb d 58); [now intros [= <- <-]|]. destruct (N.eqb d 60).
    + destruct (lex_name s) as [[n r']|] eqn:E; [|discriminate]. intros [= <- <-]. now rewrite (lex_name_app _ t _ _ E).
    + destruct (N.eqb d 80); [|discriminate]. destruct s as [|f s]; [discriminate|]. cbn [app]. destruct (N.eqb f 60); [|discriminate].
      destruct (lex_name s) as [[n r']|] eqn:E; [|discriminate]. intros [= <- <-]. now rewrite (lex_name_app _ t _ _ E).
Qed.
Lemma lazy_mark_app s t g r : no_mark t -> lazy_mark s = (g, r) -> lazy_mark (s ++ t) = (g, r ++ t).
Proof.
  intros M. unfold lazy_mark. destruct s as [|c s].
  - intros [= <- <-]. cbn [app]. destruct t as [|c t]; [easy|]. cbn in M. now rewrite M.
  - cbn [app]. destruct (N.eqb c 63); now intros [= <- <-].
Qed.
Lemma lex_one_app c s t k r : no_mark t -> lex_one c s = Some (k, r) -> lex_one c (s ++ t) = Some (k, r ++ t).
Proof.
  intros M. unfold lex_one. destruct (N.eqb c 92).
  { destruct s as [|d s]; [discriminate|]. cbn [app]. destruct (escaped_char d); [now intros [= <- <-]|]. destruct (escaped_class d); [now intros [= <- <-]|].
    destruct (escaped_not_class d); [now intros [= <- <-]|]. destruct (escaped_look d); [now intros [= <- <-]|discriminate]. }
  destruct (N.eqb c 46); [now intros [= <- <-]|].
  destruct (N.eqb c 91). { destruct (lex_class s) as [[x r']|] eqn:E; [|discriminate]. intros [= <- <-]. now rewrite (lex_class_app _ t _ _ E). }
  destruct (N.eqb c 40). { destruct (lex_open s) as [[x r']|] eqn:E; [|discriminate]. intros [= <- <-]. now rewrite (lex_open_app _ t _ _ M E). }
  destruct (N.eqb c 41); [now intros [= <- <-]|]. destruct (N.eqb c 124); [now intros [= <- <-]|].
  destruct (N.eqb c 94); [now intros [= <- <-]|]. destruct (N.eqb c 36); [now intros [= <- <-]|].
  destruct (N.eqb c 42). { destruct (lazy_mark s) as [g r'] eqn:E. intros [= <- <-]. now rewrite (lazy_mark_app _ t _ _ M E). }
  destruct (N.eqb c 43). { destruct (lazy_mark s) as [g r'] eqn:E. intros [= <- <-]. now rewrite (lazy_mark_app _ t _ _ M E). }
  destruct (N.eqb c 63). { destruct (lazy_mark s) as [g r'] eqn:E. intros [= <- <-]. now rewrite (lazy_mark_app _ t _ _ M E). }
  destruct (N.eqb c 123). { destruct (lex_count s) as [[[lo hi] r1]|] eqn:C; [|discriminate]. rewrite (lex_count_app _ t _ _ _ C).
    destruct (lazy_mark r1) as [g r'] eqn:E. intros [= <- <-]. now rewrite (lazy_mark_app _ t _ _ M E). }
  now intros [= <- <-].
Qed.
Lemma lex_app k : forall s t ts us k', no_mark t -> lex k s = Some ts -> lex k' t = Some us -> lex (k + k') (s ++ t) = Some (ts ++ us).
Proof.
  induction k as [|k IH]; intros s t ts us k' M A B.
  - destruct s; [|discriminate]. injection A as <-. exact B.
  - destruct s as [|c s]; [injection A as <-; cbn [app]; apply lex_fuel with k'; [easy|lia]|]. cbn [lex] in A. cbn [app Nat.add lex].
    destruct (lex_one c s) as [[x r]|] eqn:E; [|discriminate]. destruct (lex k r) as [l|] eqn:F; [|discriminate]. injection A as <-.
    rewrite (lex_one_app _ _ t _ _ M E), (IH r t l us k' M F B). reflexivity.
Qed.
Lemma lex_all_app s t ts us : no_mark t -> lex_all s = Some ts -> lex_all t = Some us -> lex_all (s ++ t) = Some (ts ++ us).
Proof. intros M A B. unfold lex_all in *. rewrite app_length. now apply lex_app. Qed.
(** an escaped text *)
Lemma meta_escaped c : is_meta c = true -> escaped_char c = Some c.
Proof. unfold escaped_char. now intros ->. Qed.
Lemma not_meta c : is_meta c = false -> forall r, lex_one c r = Some (KSet (chr c), r).
Proof.
  intros M r. unfold is_meta, meta in M. cbn [of_string existsb] in M. repeat (apply orb_false_iff in M as [? M]). clear M.
  unfold lex_one. repeat match goal with H : N.eqb c _ = false |- _ => cbn in H; rewrite H; clear H end. reflexivity.
Qed.
Lemma escape_lex s : lex_all (escape s) = Some (map (fun c => KSet (chr c)) s).
Proof.
  induction s as [|c s IH]; [reflexivity|]. cbn [escape flat_map map]. fold (escape s).
  change (KSet (chr c) :: map (fun c => KSet (chr c)) s) with ([KSet (chr c)] ++ map (fun c => KSet (chr c)) s).
  apply lex_all_app; [|destruct (is_meta c) eqn:M|exact IH].
  - destruct s as [|d s]; [exact I|]. cbn [escape flat_map]. destruct (is_meta d) eqn:M; [reflexivity|]. cbn. destruct (N.eqb_spec d 63) as [->|]; [discriminate|reflexivity].
  - unfold lex_all. cbn [List.length lex]. unfold lex_one. rewrite N.eqb_refl. now rewrite (meta_escaped c M).
  - unfold lex_all. cbn [List.length lex]. now rewrite (not_meta c M).
Qed.
