(** Properties C01-C04: lit feature expressions. *)
From Verif Require Import Base BoolExpr_Model BoolExpr_Spec BoolExpr_Proofs.
From Coq Require Import String.
Local Open Scope N_scope.

(** C01. Any way of writing [e] with minimal parentheses, with any white space, parses to [e]. *)
Theorem C01_minimal_print_parses : forall valid e s,
  wf valid e -> layout spells s (show 0 e) -> parse valid s = Ok (denote e).
Proof. exact parse_show. Qed.
Print Assumptions C01_minimal_print_parses.

(** Non-vacuity: "a || b && !{{c.*}}" with uneven spacing. *)
Example C01_example :
  let e := SOr (SVar (of_string "a")) (SAnd (SVar (of_string "b")) (SNot (SPat (of_string "c.*")))) in
  wf (fun _ => true) e /\
  layout spells (of_string "a ||b&&  ! {{c.*}} ") (show 0 e) /\
  parse (fun _ => true) (of_string "a ||b&&  ! {{c.*}} ") = Ok (denote e).
Proof.
  assert (W : Forall white [32]) by (repeat constructor; apply is_white_spec; reflexivity).
  assert (W2 : Forall white [32;32]) by (repeat constructor; apply is_white_spec; reflexivity).
  assert (I : forall c, is_ident c = true -> Forall ident_char [c])
    by (intros c Hc; constructor; [now apply is_ident_spec|constructor]).
  split; [|split; [|vm_compute; reflexivity]].
  - cbn. repeat split; try discriminate; try (apply I; reflexivity); cbn; intuition discriminate.
  - apply (lay_cons _ [] (TIdent (of_string "a")) (of_string "a") (of_string " ||b&&  ! {{c.*}} "));
      [constructor|constructor; [discriminate|now apply I]|cbn; apply is_ident_false; reflexivity|].
    apply (lay_cons _ [32] TOr (of_string "||") (of_string "b&&  ! {{c.*}} ")); [exact W|constructor|exact Logic.I|].
    apply (lay_cons _ [] (TIdent (of_string "b")) (of_string "b") (of_string "&&  ! {{c.*}} "));
      [constructor|constructor; [discriminate|now apply I]|cbn; apply is_ident_false; reflexivity|].
    apply (lay_cons _ [] TAnd (of_string "&&") (of_string "  ! {{c.*}} ")); [constructor|constructor|exact Logic.I|].
    apply (lay_cons _ [32;32] TNot (of_string "!") (of_string " {{c.*}} ")); [exact W2|constructor|exact Logic.I|].
    apply (lay_cons _ [32] (TPattern (of_string "c.*")) (of_string "{{" ++ of_string "c.*" ++ of_string "}}") [32]);
      [exact W|constructor; cbn; intuition discriminate|exact Logic.I|].
    constructor. exact W.
Qed.

(** C01, general form: the parser accepts every sentence of the documented grammar, in every
    layout, and returns the tree the grammar gives it. *)
Theorem C01_grammar_complete : forall valid s ts e,
  layout spells s ts -> g_or valid ts e -> parse valid s = Ok e.
Proof. exact parse_complete. Qed.
Print Assumptions C01_grammar_complete.

(** C02 is false as stated: a pattern gains a pair of parentheses on every trip
    (boolean.rs:385-389 wraps each regex in a group, Display at 115 prints the wrapped text). *)
Theorem C02_refuted : exists s e e',
  parse (fun _ => true) s = Ok e /\ parse (fun _ => true) (display e) = Ok e' /\ e' <> e.
Proof.
  exists (of_string "{{a}}"), (Pattern (of_string "(a)")), (Pattern (of_string "((a))")).
  repeat split; discriminate.
Qed.
Print Assumptions C02_refuted.

(** C02, the part that holds: exact for expressions without patterns, and in general the same
    expression with one more group around each pattern. Missing: textual identity of patterns
    (refuted above). *)
Theorem C02_roundtrip_partial : forall valid s e,
  parse valid s = Ok e -> patterns e = [] -> parse valid (display e) = Ok e.
Proof.
  intros valid s e H Hp.
  rewrite <- (regroup_id e Hp) at 2.
  exact (display_parse valid s e H ltac:(rewrite Hp; intros ? [])).
Qed.
Print Assumptions C02_roundtrip_partial.
Example C02_example :
  parse (fun _ => true) (of_string "!(a||b) && true") =
    Ok (And (Not (Or (Var (of_string "a")) (Var (of_string "b")))) (Lit true)) /\
  display (And (Not (Or (Var (of_string "a")) (Var (of_string "b")))) (Lit true))
    = of_string "(!(a || b) && true)".
Proof. split; vm_compute; reflexivity. Qed.

Theorem C02_roundtrip_regroup_partial : forall valid s e,
  parse valid s = Ok e ->
  (forall p, In p (patterns e) -> valid (of_string "(" ++ p ++ of_string ")") = true) ->
  parse valid (display e) = Ok (regroup e).
Proof. exact display_parse. Qed.
Print Assumptions C02_roundtrip_regroup_partial.

(** ... and therefore with the same truth value, for any regex semantics in which grouping does
    not change what a pattern matches. *)
Theorem C02_roundtrip_meaning_partial : forall rmatch env e,
  (forall p v, rmatch (of_string "(" ++ p ++ of_string ")") v = rmatch p v) ->
  evaluate rmatch env (regroup e) = evaluate rmatch env e.
Proof. exact evaluate_regroup. Qed.
Print Assumptions C02_roundtrip_meaning_partial.
Example C02_meaning_example :
  forall p v, (fun _ _ : str => true) (of_string "(" ++ p ++ of_string ")") v = true.
Proof. reflexivity. Qed.

(** C03, termination: parsing always produces an expression or an error. *)
Theorem C03_parse_total : forall valid s,
  (exists e, parse valid s = Ok e) \/ (exists x, parse valid s = Err x).
Proof.
  intros valid s. pose proof (parse_terminates valid s) as H.
  destruct (parse valid s) as [e|x|]; [left; now exists e|right; now exists x|contradiction].
Qed.
Print Assumptions C03_parse_total.

(** C03 as stated is false in two ways: everything from a NUL character on is silently ignored
    (boolean.rs:537-540), and a regex may be opened by a single brace, which then becomes part
    of the regex (boolean.rs:684-687). *)
Theorem C03_trailing_nul_refuted : exists s tail e,
  tail <> [] /\ parse (fun _ => true) (s ++ tail) = Ok e /\ parse (fun _ => true) s = Ok e /\
  ~ exists ts, layout spells (s ++ tail) ts.
Proof.
  exists (of_string "a"), (0 :: of_string ") && nonsense ("), (Var (of_string "a")).
  repeat split; try discriminate; try (vm_compute; reflexivity).
  intros (ts & Hl).
  assert (H : lex_all 40 (of_string "a" ++ 0 :: of_string ") && nonsense (") = mkStream ts SEof).
  { apply lex_all_complete; [|vm_compute; lia].
    eapply layout_impl; [|exact Hl]. apply sl_strict. }
  vm_compute in H. injection H as <-.
  assert (Hn : ~ In 0 (of_string "a" ++ 0 :: of_string ") && nonsense (")).
  { clear - Hl. revert Hl. generalize (of_string "a" ++ 0 :: of_string ") && nonsense (").
    intros s Hl. remember [TIdent [97]] as ts. clear Heqts.
    assert (Hb : forall ws, blank ws -> ~ In 0 ws).
    { intros ws Hb Hin. unfold blank in Hb. rewrite Forall_forall in Hb.
      apply Hb, is_white_spec in Hin. discriminate. }
    induction Hl as [ws Hw|ws t w rest ts Hw Hs _ _ IH]; [now apply Hb|].
    rewrite !in_app_iff. intros [H|[H|H]]; [now apply (Hb _ Hw)| |now apply IH].
    destruct Hs as [w Hne Hf|p _ H0 _| | | | | ]; cbn in H; try (intuition discriminate).
    - eapply ident_char_excl in H; [|exact Hf]. now destruct H.
    - rewrite !in_app_iff in H. cbn in H. intuition discriminate. }
  apply Hn. vm_compute. tauto.
Qed.
Print Assumptions C03_trailing_nul_refuted.

Theorem C03_single_brace_refuted : exists s e,
  parse (fun _ => true) s = Ok e /\ ~ In 0 s /\
  (forall ts, layout spells s ts -> ~ g_or (fun _ => true) ts e).
Proof.
  exists (of_string "{foo}}"), (Pattern (of_string "({foo)")).
  split; [vm_compute; reflexivity|]. split; [cbn; intuition discriminate|].
  intros ts Hl _.
  inversion Hl as [ws Hb E|ws t w rest ts' Hb Hs Hsep Hr E E2]; subst.
  - inversion Hb as [|? ? Hc]; subst. apply is_white_spec in Hc. discriminate.
  - destruct ws as [|c ws].
    + destruct Hs; cbn in E; try discriminate.
      destruct w as [|c w]; [contradiction|]. injection E as -> _.
      inversion H0 as [|? ? Hc]; subst. apply is_ident_spec in Hc. discriminate.
    + injection E as -> _. inversion Hb as [|? ? Hc]; subst.
      apply is_white_spec in Hc. discriminate.
Qed.
Print Assumptions C03_single_brace_refuted.

(** C03, exact description of what is accepted: the text up to the first NUL is a layout of a
    sentence of the grammar, where a regex may also be opened by a single brace.
    Missing from the property: the two deviations refuted above. *)
Theorem C03_accepted_partial : forall valid s e, parse valid s = Ok e ->
  exists body tail ts, s = body ++ tail /\ ~ In 0 body /\
    (tail = [] \/ exists r, tail = 0 :: r) /\
    layout spells_lenient body ts /\ g_or valid ts e.
Proof. exact parse_sound_exact. Qed.
Print Assumptions C03_accepted_partial.
Example C03_example : exists e, parse (fun _ => true) (of_string "(a && {{b}}c) || d") = Ok e.
Proof. eexists. vm_compute. reflexivity. Qed.

(** C04. The report is [None] iff all requirements hold, and otherwise lists exactly the
    expressions that do not hold, in order; dually for unsupported features. The value of an
    expression is its truth in the set of features. *)
Theorem C04_missing_features : forall rmatch env req,
  (missing_features rmatch env req = None <->
     forall e, In e req -> holds rmatch (fun v => In v env) e) /\
  (forall msg, missing_features rmatch env req = Some msg ->
     exists bad, bad = filter (fun e => negb (evaluate rmatch env e)) req /\
       msg = of_string "Test requires the following unavailable features: "
             ++ join (of_string ", ") (map display bad)).
Proof.
  intros rmatch env req. unfold missing_features. rewrite !report_spec by discriminate.
  assert (Hf : filter (fun e => Bool.eqb (evaluate rmatch env e) false) req
               = filter (fun e => negb (evaluate rmatch env e)) req).
  { apply filter_ext. intro e. now destruct (evaluate rmatch env e). }
  rewrite Hf; clear Hf. split.
  - split.
    + intros H e He. apply evaluate_holds.
      destruct (evaluate rmatch env e) eqn:E; [reflexivity|].
      assert (Hin : In e (filter (fun e => negb (evaluate rmatch env e)) req))
        by (apply filter_In; now rewrite E).
      destruct (filter _ req); [destruct Hin|discriminate].
    + intro H. destruct (filter _ req) as [|e f] eqn:E; [reflexivity|].
      assert (Hin : In e (filter (fun e => negb (evaluate rmatch env e)) req)) by (rewrite E; now left).
      apply filter_In in Hin as [Hin Hb]. apply H, evaluate_holds in Hin. now rewrite Hin in Hb.
  - intros msg H. eexists. split; [reflexivity|].
    destruct (filter _ req) as [|e f]; [discriminate|]. now injection H as <-.
Qed.
Print Assumptions C04_missing_features.

Theorem C04_unsupported_features : forall rmatch env uns,
  (unsupported_features rmatch env uns = None <->
     forall e, In e uns -> ~ holds rmatch (fun v => In v env) e) /\
  (forall msg, unsupported_features rmatch env uns = Some msg ->
     exists bad, bad = filter (fun e => evaluate rmatch env e) uns /\
       msg = of_string "Test does not support the following features: "
             ++ join (of_string ", ") (map display bad)).
Proof.
  intros rmatch env uns. unfold unsupported_features. rewrite report_spec by discriminate.
  assert (Hf : filter (fun e => Bool.eqb (evaluate rmatch env e) true) uns
               = filter (fun e => evaluate rmatch env e) uns).
  { apply filter_ext. intro e. now destruct (evaluate rmatch env e). }
  rewrite Hf; clear Hf. split.
  - split.
    + intros H e He Hh. apply evaluate_holds in Hh.
      assert (Hin : In e (filter (fun e => evaluate rmatch env e) uns)) by (now apply filter_In).
      destruct (filter _ uns); [destruct Hin|discriminate].
    + intro H. destruct (filter _ uns) as [|e f] eqn:E; [reflexivity|].
      assert (Hin : In e (filter (fun e => evaluate rmatch env e) uns)) by (rewrite E; now left).
      apply filter_In in Hin as [Hin Hb]. apply evaluate_holds in Hb. now apply H in Hb.
  - intros msg H. eexists. split; [reflexivity|].
    destruct (filter _ uns) as [|e f]; [discriminate|]. now injection H as <-.
Qed.
Print Assumptions C04_unsupported_features.

(** Only membership in the feature set matters. *)
Theorem C04_set_semantics : forall rmatch env1 env2 e,
  (forall v, In v env1 <-> In v env2) ->
  evaluate rmatch env1 e = evaluate rmatch env2 e.
Proof.
  intros rmatch env1 env2 e H.
  assert (Hh : holds rmatch (fun v => In v env1) e <-> holds rmatch (fun v => In v env2) e).
  { induction e as [b|x|p|e IH|a IHa b IHb|a IHa b IHb]; cbn [holds]; try tauto.
    - apply H.
    - split; intros (v & Hv & E); exists v; split; auto; now apply H. }
  destruct (evaluate rmatch env1 e) eqn:E1, (evaluate rmatch env2 e) eqn:E2; auto.
  - apply evaluate_holds, Hh, evaluate_holds in E1. congruence.
  - apply evaluate_holds, Hh, evaluate_holds in E2. congruence.
Qed.
Print Assumptions C04_set_semantics.
Example C04_example :
  missing_features (fun _ _ => false) [of_string "linux"]
    [Var (of_string "linux"); Var (of_string "x86"); Not (Var (of_string "linux"))]
  = Some (of_string "Test requires the following unavailable features: x86, !linux").
Proof. vm_compute. reflexivity. Qed.
