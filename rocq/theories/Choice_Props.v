(** Which match is taken (C80). *)
From Coq Require Import String.
From Verif Require Import Base Text_Model Cursor_Model Check_Model Lit_Model Lit_Spec Env_Model Num_Model Gram_Model Parse_Model
  Regex_Model Regex_Spec Regex_Proofs Regex_Engine Regex_Frame Smart_Model Smart_Spec Smart_Static Smart_Parts Smart_Props Choice_Spec Choice_Proofs Choice_Parts.
Open Scope string_scope.
Open Scope list_scope.
Open Scope nat_scope.
Ltac splits := repeat match goal with |- _ /\ _ => split end.

(** C80: of the matches that begin at the leftmost place the preferred one is taken; so the result of a search is determined by the pattern, the input and the range. *)
Theorem pattern_chosen : forall ci strict fuel l,
  Forall (static ci) l -> forallb is_literal l = false -> NoDup (flat_map part_names l) ->
  exists m, compile_pattern ascii_engine ci strict (PParts l) = Val m /\
    forall b line at_ s e env0, s <= e -> e <= length b ->
    forall r, try_match ascii_engine ci fuel b line at_ m (mkRange s e) env0 = Some (Val r) <-> choice ci b l s e at_ env0 r.
Proof.
  intros ci strict fuel l F N D. destruct (static_compiled ci strict l F N D) as (ts & n & rs & idx & P & C).
  assert (AC : all_chosen ci l rs idx).
  { destruct (statics_chosen ci l F) as (ts' & n' & rs' & idx' & P' & A). destruct (flat_same _ _ _ _ _ _ _ (pso_flat _ _ _ _ _ _ P) (pso_flat _ _ _ _ _ _ P')) as (-> & -> & ->).
    assert (E : idx = idx'); [|now subst]. pose proof (pso_own _ _ _ _ _ _ P) as O. pose proof (pso_own _ _ _ _ _ _ P') as O'.
    assert (G : forall k k' nm, nth_error (None :: open_names ts') k = Some (Some nm) -> nth_error (None :: open_names ts') k' = Some (Some nm) -> k = k').
    { assert (Dn : NoDup (some_names (None :: open_names ts'))) by (change (some_names (None :: open_names ts')) with (some_names (open_names ts')); now rewrite (pso_names _ _ _ _ _ _ P')).
      clear -Dn. revert Dn. generalize (None :: open_names ts'). induction l as [|o l IH]; intros Dn k k' nm K K'; [now destruct k|].
      assert (Dl : NoDup (some_names l)) by (destruct o; [cbn in Dn; now inversion Dn|exact Dn]).
      assert (In_ : forall k, nth_error l k = Some (Some nm) -> In nm (some_names l)). { intros q Q. apply nth_error_In in Q. unfold some_names. apply in_flat_map. exists (Some nm). split; [exact Q|now left]. }
      destruct k as [|k], k' as [|k']; cbn [nth_error] in *; [reflexivity| | |f_equal; eauto]; [injection K as ->; apply In_ in K'|injection K' as ->; apply In_ in K]; cbn in Dn; inversion Dn; contradiction. }
    clear -O O' G. revert idx' O'. induction O as [|c k cs ks E O IH]; intros idx' O'; inversion O'; subst; [reflexivity|]. f_equal; eauto. }
  eexists. split; [exact C|]. intros b line at_ s e env0 Ls Le. 
  assert (X : exists r, try_match ascii_engine ci fuel b line at_ (MRegex ascii_engine (mkRx ci (cat rs) (None :: open_names ts)) (combine idx (flat_map part_caps l))) (mkRange s e) env0 = Some (Val r) /\ choice ci b l s e at_ env0 r).
  2:{ destruct X as (r0 & T & O). intros r. rewrite T. split; [intros [= <-]; exact O|]. intros O'. do 2 f_equal. eapply choice_one; eauto. }
  cbn [try_match]. eexists. split; [reflexivity|].
  unfold regex_match. cbn [rx_search ascii_engine].
  set (x := mkRx ci (cat rs) (None :: open_names ts)).
  assert (Px : proper (cat rs)). { apply cat_proper. eapply flat_proper. exact (pso_flat _ _ _ _ _ _ P). }
  destruct (re_search x b (mkRange s e) false) as [lg|] eqn:S.
  - apply search_some in S as (i & j & g & -> & Li & _ & R & (tl & En) & Lm); [|exact Px]. cbn [rstart rend x_ci x_re x_names x] in *.
    destruct (first_preferred ci l rs idx b e i j g tl Px AC Le (proj2 Li) En) as (cs & Pf & Ec & Cc).
    assert (Pc : pieces ci b e l i j cs) by (destruct Pf as (t & H & _); now apply chosen_is in H).
    assert (Fp : first_pieces ci b l s e i j cs).
    { unfold first_pieces. splits; auto; try lia. intros k j' cs' K H. apply (pso_lang _ _ _ _ _ _ P) in H; [|lia..]. revert H. apply nil_lang; [apply Lm; auto; lia|lia]. }
    assert (F2 : Forall2 (fun rc c => snd rc = fst c /\ text_of b (fst rc) = snd c)
                  (capture_spans (combine idx (flat_map part_caps l)) (Some (mkRange i j) :: map g (seq 1 (length (None :: open_names ts) - 1)))) cs).
    { pose proof (flat_facts _ _ _ _ (pso_flat _ _ _ _ _ _ P)) as [En2 _]. pose proof (pso_idx _ _ _ _ _ _ P) as X. clear -Cc Ec X En2.
      rewrite <- Ec. cbn [length]. replace (S (length (open_names ts)) - 1) with n by lia. clear Ec En2. unfold capture_spans.
      induction Cc as [|c k cs ks (r & Hr & Er) Cc IH]; [constructor|]. inversion X as [|? ? Xk X2]; subst. cbn [map combine flat_map].
      assert (G : group_span (Some (mkRange i j) :: map g (seq 1 n)) k = Some r).
      { unfold group_span. destruct k as [|k]; [lia|]. cbn [nth_error]. rewrite nth_error_map, nth_error_nth' with (d := 0) by (rewrite seq_length; lia). rewrite seq_nth by lia. cbn [option_map Nat.add] in *. now rewrite Hr. }
      cbn [fst snd]. rewrite G. cbn [app]. constructor; [split; [reflexivity|now cbn]|]. apply IH. exact X2. }
    destruct (convert_groups_spec b _ _ F2) as [V1 V2]. destruct (convert_groups b _) as [vs|].
    + unfold bind_all. apply ch_found with cs; auto.
    + apply ch_bad with i j cs; auto.
  - apply ch_none. intros i j cs K H. apply (pso_lang _ _ _ _ _ _ P) in H; [|lia..]. revert H.
    apply nil_lang; [|lia]. apply (search_none x b (mkRange s e) false S); cbn; lia.
Qed.
Print Assumptions pattern_chosen.

(** ... and so does one that is a single regular expression, alternations included. *)
Theorem regex_chosen_pattern : forall ci strict fuel t x, build ci t = Some x ->
  exists m, compile_pattern ascii_engine ci strict (PRegex t) = Val m /\
    forall b line at_ s e env0, s <= e -> e <= length b ->
    forall r, try_match ascii_engine ci fuel b line at_ m (mkRange s e) env0 = Some (Val r) <-> choice ci b [QRegex t] s e at_ env0 r.
Proof.
  intros ci strict fuel t x B. pose proof (build_proper _ _ _ B) as [Px Cx]. pose proof (regex_chosen ci t x B) as AC. exists (MRegex ascii_engine x []). split.
  { unfold compile_pattern, regex_matcher, regex_of. cbn [compact rx_build ascii_engine]. rewrite B. reflexivity. }
  intros b line at_ s e env0 Ls Le.
  assert (X : exists r, try_match ascii_engine ci fuel b line at_ (MRegex ascii_engine x []) (mkRange s e) env0 = Some (Val r) /\ choice ci b [QRegex t] s e at_ env0 r).
  2:{ destruct X as (r0 & T & O). intros r. rewrite T. split; [intros [= <-]; exact O|]. intros O'. do 2 f_equal. eapply choice_one; eauto. }
  cbn [try_match]. eexists. split; [reflexivity|]. unfold regex_match. cbn [rx_search ascii_engine].
  assert (One : forall i j cs, pieces ci b e [QRegex t] i j cs -> lang ci b e (x_re x) i j).
  { intros i j cs H. inversion H as [|? ? ? k ? c1 c2 P1 P2]; subst. inversion P2; subst. inversion P1 as [|? y ? ? By Ly| | |]; subst. assert (y = x) by congruence. now subst y. }
  destruct (re_search x b (mkRange s e) false) as [lg|] eqn:S.
  - apply search_some in S as (i & j & g & -> & Li & _ & R & (tl & En) & Lm); [|exact Px]. cbn [rstart rend] in *. cbn [capture_spans flat_map convert_groups bind_all fold_left]. rewrite Cx in *.
    assert (En' : ends ci b e (cat [x_re x]) i no_caps = (j, g) :: tl).
    { cbn [cat fold_right ends]. rewrite En. cbn [flat_map app fst snd]. f_equal. clear. induction tl as [|[k h] tl IH]; [reflexivity|]. cbn [flat_map app fst snd]. now rewrite IH. }
    destruct (first_preferred ci [QRegex t] [x_re x] [] b e i j g tl (pr_cat _ _ Px pr_eps) AC Le (proj2 Li) En') as (cs & Pf & Ec & _). cbn [flat_map part_caps app] in Ec. apply map_eq_nil in Ec. subst cs.
    assert (Pc : pieces ci b e [QRegex t] i j []) by (destruct Pf as (u & H & _); now apply chosen_is in H).
    apply (ch_found ci b [QRegex t] s e at_ env0 i j [] []); [|exact Pf|constructor]. unfold first_pieces. splits; auto; try lia.
    intros k j' cs' K H. apply One in H. revert H. apply nil_lang; [apply Lm; auto; lia|lia].
  - apply ch_none. intros i j cs K H. apply One in H. revert H. rewrite <- Cx. apply nil_lang; [|lia]. apply (search_none x b (mkRange s e) false S); cbn; lia.
Qed.
Print Assumptions regex_chosen_pattern.

(** A text to match: with a greedy repetition of a set of characters alone it is the longest one that begins there, with a lazy one the shortest. *)
Lemma set_more ci b e c g m : forall i j t, takes_more ci b e m g (RSet c) i j t -> exists n, j = n + i /\ (forall h, m = Some h -> n <= h) /\ (t = repeat (negb g) n ++ [g] \/ m = Some n /\ t = repeat (negb g) n).
Proof.
  intros i j t H. remember (RSet c) as x eqn:E. induction H as [g x i|hi g x i N|n g x i k j t u T H IH|g x i k j t u T L H IH|g x i t T]; subst x.
  - exists 0. splits; [reflexivity|lia|right; auto].
  - exists 0. splits; [reflexivity|lia|left; reflexivity].
  - apply set_takes in T as (-> & -> & _). destruct (IH eq_refl) as (q & -> & Q & [->|[[= ->] ->]]); exists (S q); (splits; [lia|intros h [= <-]; specialize (Q _ eq_refl); lia|]); [left|right]; cbn [app repeat]; auto.
  - apply set_takes in T as (-> & -> & _). destruct (IH eq_refl) as (q & -> & Q & [->|[[=] _]]); exists (S q); splits; [lia|discriminate|]. left. reflexivity.
  - apply set_takes in T as (_ & T & _). lia.
Qed.
Theorem repetition_extent : forall ci strict fuel s x lo hi g c, build ci s = Some x -> x_re x = RCat (RRep lo hi g (RSet c)) REps ->
  exists m, compile_pattern ascii_engine ci strict (PRegex s) = Val m /\
    forall b line at_ st e env0 i j env1, st <= e -> e <= length b ->
    try_match ascii_engine ci fuel b line at_ m (mkRange st e) env0 = Some (Val (mkRes Good (Some (mkInfo (mkRange i j) 0 at_)), env1)) ->
    forall j', lang ci b e (x_re x) i j' -> if g then j' <= j else j <= j'.
Proof.
  intros ci strict fuel s x lo hi g c B Ex. destruct (regex_chosen_pattern ci strict fuel s x B) as (m & C & T). exists m. split; [exact C|].
  intros b line at_ st e env0 i j env1 L1 L2 H j' Lj. apply T in H; auto. inversion H as [|? ? cs vs F (t & Ht & N) V|]; subst. pose proof (build_proper _ _ _ B) as [Px _].
  destruct F as (A1 & A2 & _). inversion Ht as [|? ? ? k ? cs1 cs2 t1 t2 Hp Hc Hl]; subst. inversion Hl; subst. inversion Hc as [|? y ? ? ? By Ty| |]; subst. rewrite B in By. injection By as <-.
  destruct (lang_takes ci b e (x_re x) i j' Px A2 Lj) as (t' & Tj).
  assert (Q : ~ sooner t' t1).
  { intros S. assert (Z : chosen_pieces ci b e [QRegex s] i j' ([] ++ []) (t' ++ [])). { apply cps_cons with j'; [now apply pc_regex with x|now apply cp_regex with x|constructor]. }
    apply (N _ _ _ Z). rewrite !app_nil_r. exact S. }
  rewrite Ex in Ty, Tj. apply (proj1 (takes_cat_one ci b e _ _ _ _)) in Ty. apply (proj1 (takes_cat_one ci b e _ _ _ _)) in Tj.
  inversion Ty as [| | | | | |? ? ? ? ? k ? u v H1 H2|]; subst. inversion Tj as [| | | | | |? ? ? ? ? k' ? u' v' H1' H2'|]; subst.
  apply set_takes_n in H1 as (-> & -> & _), H1' as (-> & -> & _). cbn [app] in Q. apply set_more in H2 as (n & -> & Bn & Dn), H2' as (n' & -> & Bn' & Dn').
  assert (S : (if g then n < n' else n' < n) -> sooner v' v).
  { intros Lt. destruct g; cbn [negb] in *.
    - destruct Dn as [->|[Em ->]]; [|specialize (Bn' _ Em); lia].
      assert (Ev : exists z, v' = repeat false n ++ false :: z).
      { replace n' with (n + S (n' - S n)) in Dn' by lia. rewrite repeat_app in Dn'. cbn [repeat] in Dn'. destruct Dn' as [->|[_ ->]]; [rewrite <- app_assoc|]; eexists; reflexivity. }
      destruct Ev as (z & ->). exists (repeat false n), z, []. auto.
    - destruct Dn' as [->|[Em ->]]; [|specialize (Bn _ Em); lia].
      assert (Ev : exists z, v = repeat true n' ++ true :: z).
      { replace n with (n' + S (n - S n')) in Dn by lia. rewrite repeat_app in Dn. cbn [repeat] in Dn. destruct Dn as [->|[_ ->]]; [rewrite <- app_assoc|]; eexists; reflexivity. }
      destruct Ev as (z & ->). exists (repeat true n'), [], z. auto. }
  destruct g; [destruct (Nat.le_gt_cases n' n)|destruct (Nat.le_gt_cases n n')]; try lia; elim Q; apply S; lia.
Qed.
Print Assumptions repetition_extent.
(** Of two alternatives, the first is taken if it matches there. *)
Theorem first_alternative : forall ci strict fuel s x y z, build ci s = Some x -> x_re x = RAlt y z ->
  exists m, compile_pattern ascii_engine ci strict (PRegex s) = Val m /\
    forall b line at_ st e env0 i j env1, st <= e -> e <= length b ->
    try_match ascii_engine ci fuel b line at_ m (mkRange st e) env0 = Some (Val (mkRes Good (Some (mkInfo (mkRange i j) 0 at_)), env1)) ->
    (exists k, lang ci b e y i k) -> lang ci b e y i j.
Proof.
  intros ci strict fuel s x y z B Ex. destruct (regex_chosen_pattern ci strict fuel s x B) as (m & C & T). exists m. split; [exact C|].
  intros b line at_ st e env0 i j env1 L1 L2 H (j' & Lj). apply T in H; auto. inversion H as [|? ? cs vs F (t & Ht & N) V|]; subst. pose proof (build_proper _ _ _ B) as [Px _]. rewrite Ex in Px. inversion Px as [| | | |? ? Py Pz| |]; subst.
  destruct F as (A1 & A2 & _). inversion Ht as [|? ? ? k ? cs1 cs2 t1 t2 Hp Hc Hl]; subst. inversion Hl; subst. inversion Hc as [|? y0 ? ? ? By Ty| |]; subst. rewrite B in By. injection By as <-.
  destruct (lang_takes ci b e y i j' Py A2 Lj) as (t' & Tj). rewrite Ex in Ty. inversion Ty as [| | | |? ? ? ? t3 Ta|? ? ? ? t3 Ta| |]; subst; [now apply takes_lang in Ta|]. exfalso.
  assert (Z : chosen_pieces ci b e [QRegex s] i j' ([] ++ []) ((false :: t') ++ [])).
  { apply cps_cons with j'; [apply pc_regex with x; [exact B|]; rewrite Ex; now apply lg_left|apply cp_regex with x; [exact B|]; rewrite Ex; now apply tk_left|constructor]. }
  apply (N _ _ _ Z). apply sooner_head.
Qed.
Print Assumptions first_alternative.

(** Cases: a search with alternatives, greedy and lazy repetitions; a number takes as many digits as it can, and leaves those that the rest needs. *)
Definition span_of (r : option (res (mresult * @bindings value))) : option range :=
  match r with Some (Val (mkRes Good (Some i), _)) => Some (i_span i) | _ => None end.
Example choice_cases :
  map (fun p => span_of (at_start false false (PRegex (str_of (fst p))) [] (str_of (snd p))))
    [("a|ab", "ab"); ("ab|a", "ab"); ("a.*b", "xabab"); ("a.*?b", "xabab"); ("[0-9]+", "a123b"); ("[0-9]+?", "a123b")] =
  [Some (mkRange 0 1); Some (mkRange 0 2); Some (mkRange 1 5); Some (mkRange 1 3); Some (mkRange 1 4); Some (mkRange 1 2)].
Proof. vm_compute. reflexivity. Qed.
Example digits_case : exists x, build false (str_of "[0-9]+") = Some x /\ x_re x = RCat (RRep 1 None true (RSet (mkSet false [(48, 57)%N]))) REps.
Proof. eexists. split; reflexivity. Qed.
Example alternative_case : exists x y z, build false (str_of "a|ab") = Some x /\ x_re x = RAlt y z /\ lang false (str_of "ab") 2 y 0 1.
Proof. do 3 eexists. splits; [reflexivity..|]. eapply lg_cat; [eapply lg_set; [|reflexivity|reflexivity]; lia|constructor]. Qed.
(** the number takes "12", since "3" is needed *)
Definition number_then_3 : list part := [QMatch (MNumeric (Some (Unsigned 0)) (Some off) None); QLit (str_of "3")].
Example number_case : Forall (static false) number_then_3 /\ forallb is_literal number_then_3 = false /\ NoDup (flat_map part_names number_then_3) /\
  seen ["OFF"] (at_start false false (PParts number_then_3) [] (str_of "x1234")) = Some (Val (mkRes Good (Some (mkInfo (mkRange 1 4) 0 0)), [Some (VNum (ENum (mkNum (Some (Unsigned 0)) 12)))])).
Proof.
  splits; [|reflexivity|apply distinct_nodup; reflexivity|vm_compute; reflexivity]. repeat (first [apply Forall_nil|apply Forall_cons]); [apply st_num_def; [cbv; lia|cbn; auto]|apply st_lit].
Qed.
(** The longest match is not always the one taken. *)
Theorem longest_refuted : exists t x b r, build false t = Some x /\ at_start false false (PRegex t) [] b = Some (Val r) /\
  (exists i j k, m_info (fst r) = Some (mkInfo (mkRange i j) 0 0) /\ j < k /\ lang false b (List.length b) (x_re x) i k).
Proof.
  exists (str_of "a|ab"). do 1 eexists. exists (str_of "ab"). eexists. splits; [reflexivity|vm_compute; reflexivity|]. exists 0, 1, 2. splits; [reflexivity|lia|].
  cbn [x_re]. apply lg_right. eapply lg_cat; [eapply lg_set; [|reflexivity|reflexivity]; cbn; lia|]. eapply lg_cat; [eapply lg_set; [|reflexivity|reflexivity]; cbn; lia|constructor].
Qed.
Print Assumptions longest_refuted.
