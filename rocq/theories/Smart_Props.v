(** Properties of patterns with regular expressions and definitions of variables (C69, C70). *)
From Coq Require Import String.
From Verif Require Import Base Text_Model Cursor_Model Check_Model Lit_Model Lit_Spec Env_Model Num_Model Gram_Model Parse_Model
  Regex_Model Regex_Spec Regex_Proofs Regex_Engine Regex_Frame Smart_Model Smart_Spec Smart_Static Smart_Parts.
Open Scope string_scope.
Open Scope list_scope.
Open Scope nat_scope.
Ltac splits := repeat match goal with |- _ /\ _ => split end.

Lemma static_compiled ci strict l : Forall (static ci) l -> forallb is_literal l = false -> NoDup (flat_map part_names l) ->
  exists ts n rs idx, parts_ok ci l ts n rs idx /\
    compile_pattern ascii_engine ci strict (PParts l) = Val (MRegex ascii_engine (mkRx ci (cat rs) (None :: open_names ts)) (combine idx (flat_map part_caps l))).
Proof.
  intros F N D. destruct (statics_ok ci l F) as (ts & n & rs & idx & P). exists ts, n, rs, idx. split; [exact P|].
  unfold compile_pattern. rewrite (compact_regex ci l F N). unfold regex_matcher, regex_of. cbn [rx_build rx_groups ascii_engine]. unfold build.
  destruct (pso_flat _ _ _ _ _ _ P) as (L & M & H). rewrite L. unfold parse_tokens. rewrite H.
  assert (Dt : distinct (some_names (open_names ts)) = true) by (apply distinct_nodup; now rewrite (pso_names _ _ _ _ _ _ P)).
  rewrite Dt. unfold alt. cbn [option_map f_alts f_cur fold_left bind]. rewrite rev_involutive. cbn [rx_groups ascii_engine x_names].
  rewrite (groups_index (None :: open_names ts) _ idx); [reflexivity| |exact (pso_own _ _ _ _ _ _ P)].
  change (some_names (None :: open_names ts)) with (some_names (open_names ts)). rewrite (pso_names _ _ _ _ _ _ P). exact D.
Qed.

(** C69: a pattern whose parts do not depend on variables matches the leftmost text that is made of one
    piece for every part, and defines its variables by the texts of their pieces. *)
Theorem pattern_pieces : forall ci strict fuel l,
  Forall (static ci) l -> forallb is_literal l = false -> NoDup (flat_map part_names l) ->
  exists m, compile_pattern ascii_engine ci strict (PParts l) = Val m /\
    forall b line at_ s e env0, s <= e -> e <= length b ->
    exists r, try_match ascii_engine ci fuel b line at_ m (mkRange s e) env0 = Some (Val r) /\ outcome ci b l s e at_ env0 r.
Proof.
  intros ci strict fuel l F N D. destruct (static_compiled ci strict l F N D) as (ts & n & rs & idx & P & C).
  eexists. split; [exact C|]. intros b line at_ s e env0 Ls Le. cbn [try_match]. eexists. split; [reflexivity|].
  unfold regex_match. cbn [rx_search ascii_engine].
  set (x := mkRx ci (cat rs) (None :: open_names ts)).
  assert (Bx : build ci (flat_map part_text l) = Some x).
  { unfold build. destruct (pso_flat _ _ _ _ _ _ P) as (L & M & H). rewrite L. unfold parse_tokens. rewrite H.
    assert (Dt : distinct (some_names (open_names ts)) = true) by (apply distinct_nodup; now rewrite (pso_names _ _ _ _ _ _ P)).
    rewrite Dt. unfold alt. cbn [option_map f_alts f_cur fold_left]. now rewrite rev_involutive. }
  apply build_proper in Bx as [Px _].
  destruct (re_search x b (mkRange s e) false) as [lg|] eqn:S.
  - apply search_some in S as (i & j & g & -> & Li & _ & R & (tl & En) & Lm); [|exact Px]. cbn [rstart rend x_ci x_re x_names x] in *.
    assert (R0 : run ci b e (cat (map (re_shift 0) rs)) i no_caps j g). { rewrite (map_ext _ (fun r => r)), map_id; [exact R|]. clear. intros r. induction r; cbn [re_shift Nat.add]; congruence. }
    destruct (pso_run _ _ _ _ _ _ P b e 0 i no_caps j g Le (proj2 Li) R0) as (cs & Pc & Ec & Cc).
    assert (Fp : first_pieces ci b l s e i j cs).
    { unfold first_pieces. splits; auto; try lia. intros k j' cs' K H. apply (pso_lang _ _ _ _ _ _ P) in H; [|lia..]. revert H. apply nil_lang; [apply Lm; auto; lia|lia]. }
    assert (F2 : Forall2 (fun rc c => snd rc = fst c /\ text_of b (fst rc) = snd c)
                  (capture_spans (combine idx (flat_map part_caps l)) (Some (mkRange i j) :: map g (seq 1 (length (None :: open_names ts) - 1)))) cs).
    { pose proof (flat_facts _ _ _ _ (pso_flat _ _ _ _ _ _ P)) as [En2 _]. pose proof (pso_idx _ _ _ _ _ _ P) as X. clear -Cc Ec X En2.
      rewrite <- Ec. cbn [length]. replace (S (length (open_names ts)) - 1) with n by lia. clear Ec En2. unfold capture_spans.
      induction Cc as [|c k cs ks (r & Hr & Er) Cc IH]; [constructor|]. inversion X as [|? ? Xk X2]; subst. cbn [map combine flat_map].
      assert (G : group_span (Some (mkRange i j) :: map g (seq 1 n)) k = Some r).
      { unfold group_span. destruct k as [|k]; [lia|]. cbn [nth_error]. rewrite nth_error_map, nth_error_nth' with (d := 0) by (rewrite seq_length; lia). rewrite seq_nth by lia. cbn [option_map Nat.add] in *. now rewrite Hr. }
      cbn [fst snd]. rewrite G. cbn [app]. constructor; [split; [reflexivity|now cbn]|]. apply IH. exact X2. }
    destruct (convert_groups_spec b _ _ F2) as [V1 V2]. destruct (convert_groups b _) as [vs|].
    + unfold bind_all. apply oc_found with cs; auto.
    + apply oc_bad with i j cs; auto.
  - apply oc_none. intros i j cs K H. apply (pso_lang _ _ _ _ _ _ P) in H; [|lia..]. revert H.
    apply nil_lang; [|lia]. apply (search_none x b (mkRange s e) false S); cbn; lia.
Qed.
Print Assumptions pattern_pieces.

(** ... and so does one that is a single regular expression, alternations included. *)
Theorem regex_pattern : forall ci strict fuel t x, build ci t = Some x ->
  exists m, compile_pattern ascii_engine ci strict (PRegex t) = Val m /\
    forall b line at_ s e env0, s <= e -> e <= length b ->
    exists r, try_match ascii_engine ci fuel b line at_ m (mkRange s e) env0 = Some (Val r) /\ outcome ci b [QRegex t] s e at_ env0 r.
Proof.
  intros ci strict fuel t x B. pose proof (build_proper _ _ _ B) as [Px Cx]. exists (MRegex ascii_engine x []). split.
  { unfold compile_pattern, regex_matcher, regex_of. cbn [compact rx_build ascii_engine]. rewrite B. reflexivity. }
  intros b line at_ s e env0 Ls Le. cbn [try_match]. eexists. split; [reflexivity|]. unfold regex_match. cbn [rx_search ascii_engine].
  assert (One : forall i j cs, pieces ci b e [QRegex t] i j cs <-> cs = [] /\ lang ci b e (x_re x) i j).
  { intros i j cs. split.
    - intros H. inversion H as [|? ? ? k ? c1 c2 P1 P2]; subst. inversion P2; subst. inversion P1 as [|? y ? ? By Ly| | |]; subst. assert (y = x) by congruence. subst y. split; [reflexivity|exact Ly].
    - intros [-> H]. change (@nil (capt * str)) with (@nil (capt * str) ++ []). apply pcs_cons with j; [now apply pc_regex with x|constructor]. }
  destruct (re_search x b (mkRange s e) false) as [lg|] eqn:S.
  - apply search_some in S as (i & j & g & -> & Li & _ & R & _ & Lm); [|exact Px]. cbn [rstart rend] in *. cbn [capture_spans flat_map convert_groups bind_all fold_left].
    apply (oc_found ci b [QRegex t] s e at_ env0 i j [] []); [|constructor]. rewrite Cx in *. unfold first_pieces. splits; try lia.
    + apply One. split; [easy|]. apply (proj1 (run_lang _ _ _)) in R. exact R.
    + intros k j' cs' K H. apply One in H as [_ H]. revert H. apply nil_lang; [apply Lm; auto; lia|lia].
  - apply oc_none. intros i j cs K H. apply One in H as [_ H]. revert H. rewrite <- Cx. apply nil_lang; [|lia]. apply (search_none x b (mkRange s e) false S); cbn; lia.
Qed.
Print Assumptions regex_pattern.

(** A concrete pattern: a register, a number in base 16 and what stands before a semicolon.  Its parts satisfy the
    hypotheses; the search finds the second line. *)
Definition str_of := of_string.
Definition reg : vname := User (str_of "REG").
Definition off : vname := User (str_of "OFF").
Definition load : list part :=
  [QLit (str_of "ld r"); QMatch (MSubst reg (Some (str_of "[0-9]+"))); QLit (str_of " ("); QMatch (MNumeric (Some (Hex 0 true Lower)) (Some off) None); QLit (str_of ")"); QRegex (str_of ".*"); QLit (str_of ";")].
Definition load_input : bytes := str_of "ld r (0x1);" ++ [10%N] ++ str_of "ld r12 (0x2a) ; x".
Example load_static : Forall (static false) load /\ forallb is_literal load = false /\ NoDup (flat_map part_names load).
Proof.
  splits; [|reflexivity|apply distinct_nodup; reflexivity].
  repeat (first [apply Forall_nil|apply Forall_cons]).
  - apply st_lit.
  - eapply st_def; [reflexivity|]. cbn. auto.
  - apply st_lit.
  - apply st_num_def; [cbv; lia|cbn; auto].
  - apply st_lit.
  - eapply st_regex; [reflexivity|]. discriminate.
  - apply st_lit.
Qed.
Definition at_start ci (strict : bool) (c : cpat) (defs : list (vname * value)) (t : bytes) : option (res (mresult * @bindings value)) :=
  match compile_pattern ascii_engine ci strict c with
  | Val m => try_match ascii_engine ci 10 t 1 0 m (mkRange 0 (List.length t)) (env_from_config defs)
  | Err => Some Err
  | Panic => Some Panic
  end.
Definition seen (names : list string) (r : option (res (mresult * @bindings value))) : option (res (mresult * list (option value))) :=
  option_map (fun x => do y <- x; Val (fst y, map (fun n => look_up (snd y) (str_of n)) names)) r.
Example load_found : seen ["REG"; "OFF"] (at_start false false (PParts load) [] load_input) =
  Some (Val (mkRes Good (Some (mkInfo (mkRange 12 27) 0 0)), [Some (VStr (str_of "12")); Some (VNum (ENum (mkNum (Some (Hex 0 true Lower)) 42)))])).
Proof. vm_compute. reflexivity. Qed.

(** The claims of C69 that do not hold. *)
(** A regular expression that is an alternation is not one part of the pattern: {{a|b}} between texts takes
    in the texts.  Here "x{{a|b}}y" is found in "xa" although no text made of the three pieces is there. *)
Theorem alternation_refuted : exists l b r env1,
  (forall t, In (QRegex t) l -> exists x, build false t = Some x) /\
  at_start false false (PParts l) [] b = Some (Val (r, env1)) /\ m_ty r = Good /\
  forall i j cs, i <= List.length b -> ~ pieces false b (List.length b) l i j cs.
Proof.
  exists [QLit (str_of "x"); QRegex (str_of "a|b"); QLit (str_of "y")], (str_of "xa"). do 2 eexists. splits.
  - intros t [H|[H|[H|[]]]]; try discriminate. injection H as <-. eexists. reflexivity.
  - vm_compute. reflexivity.
  - reflexivity.
  - intros i j cs Li H. inversion H as [|? ? ? k ? c1 c2 P1 P2]; subst. inversion P2 as [|? ? ? k2 ? c3 c4 P3 P4]; subst. inversion P4 as [|? ? ? k3 ? c5 c6 P5 P6]; subst.
    inversion P5 as [? ? L5 T5| | | |]; subst. destruct (T5 0 (121%N) eq_refl) as (y & Y & A). assert (k2 < 2) by (cbn in L5; lia).
    destruct A as [A|[A _]]; [|discriminate]. subst y. destruct k2 as [|[|k2]]; [discriminate Y|discriminate Y|lia].
Qed.
Print Assumptions alternation_refuted.
(** Without --strict-whitespace a tabulator in the pattern does not match one in the input. *)
Theorem tab_refuted : exists t : str, at_start false false (PLit t) [] t = Some (Val (failed ENone, env_from_config [])) /\
  exists r, at_start false true (PLit t) [] t = Some (Val r) /\ m_ty (fst r) = Good.
Proof. exists (str_of "a" ++ [9%N] ++ str_of "b"). split; [vm_compute; reflexivity|]. eexists. split; [vm_compute; reflexivity|reflexivity]. Qed.
(** A variable cannot be defined twice, even if one definition is of the global variable of that name. *)
Theorem redefinition_refuted : 
  at_start false false (PParts [QMatch (MSubst (User (str_of "X")) (Some (str_of "a"))); QMatch (MSubst (User (str_of "X")) (Some (str_of "b")))]) [] (str_of "ab") = Some Err /\
  at_start false false (PParts [QMatch (MSubst (User (str_of "X")) (Some (str_of "a"))); QMatch (MSubst (Global (str_of "X")) (Some (str_of "b")))]) [] (str_of "ab") = Some Err.
Proof. split; vm_compute; reflexivity. Qed.
