(** C100: comparisons follow the contract of Rust's [Ord] and [Eq], and a map recognises its keys. *)
From Coq Require Import String.
From Verif Require Import Base Env_Model Num_Model Gram_Model Parse_Model Smart_Model PatSet_Model Ord_Model Ord_Spec Ord_Proofs.
Open Scope string_scope.
Open Scope list_scope.
Open Scope nat_scope.

(** Names of variables, value types, numbers, typed variables, captures and expressions are totally ordered. *)
Theorem C100_orders :
  lawful name_cmp /\ lawful type_cmp /\ lawful number_cmp /\ lawful typed_cmp /\ lawful capture_cmp /\ lawful expr_cmp.
Proof. repeat split; try apply law_name; try apply law_type; try apply law_number; try apply law_typed; try apply law_capture; apply law_expr. Qed.
Print Assumptions C100_orders.

(** Two names are equal exactly if neither is before the other. *)
Theorem C100_names : consistent name_cmp vname_eqb.
Proof. exact name_eq. Qed.
Print Assumptions C100_names.

(** [==] is an equivalence on all of them, and on matches. *)
Lemma vname_equivalence : equivalence vname_eqb.
Proof.
  split; [intros []|intros [] []|intros [] [] []]; cbn; try easy; rewrite ?str_eqb_eq; intuition congruence.
Qed.
Lemma type_eq_eq a b : type_eq a b = true <-> a = b.
Proof. destruct a as [|[f|]], b as [|[g|]]; cbn; rewrite ?format_eq_eq; intuition congruence. Qed.
Lemma number_eq_eq a b : number_eq a b = true <-> a = b.
Proof.
  destruct a as [[f|] v], b as [[g|] w]; unfold number_eq; cbn; rewrite andb_true_iff, Z.eqb_eq, ?format_eq_eq; intuition congruence.
Qed.
Lemma vname_eqb_iff a b : vname_eqb a b = true <-> a = b.
Proof. destruct a, b; cbn; try easy; rewrite str_eqb_eq; intuition congruence. Qed.
Lemma expr_eq_eq a : forall b, expr_eq a b = true <-> a = b.
Proof.
  induction a as [n|v|o l IHl r IHr]; intros [m|w|p s t]; cbn; try easy.
  - rewrite number_eq_eq. intuition congruence.
  - rewrite vname_eqb_iff. intuition congruence.
  - rewrite !andb_true_iff, IHl, IHr, Nat.eqb_eq. destruct o, p; cbn; intuition congruence.
Qed.
Lemma of_equality {A} (e : A -> A -> bool) : (forall x y, e x y = true <-> x = y) -> equivalence e.
Proof. intros H. split; intros *; rewrite ?H; intuition congruence. Qed.
Lemma option_eq_eq {A} (e : A -> A -> bool) : (forall x y, e x y = true <-> x = y) -> forall x y, option_eq e x y = true <-> x = y.
Proof. intros H [x|] [y|]; cbn; rewrite ?H; intuition congruence. Qed.
Theorem C100_equivalences :
  equivalence vname_eqb /\ equivalence type_eq /\ equivalence number_eq /\ equivalence capture_eq /\ equivalence expr_eq /\ equivalence amatch_eq.
Proof.
  assert (T : forall x y, typed_eq x y = true <-> x = y).
  { intros [v t] [w u]. unfold typed_eq; cbn. rewrite andb_true_iff, vname_eqb_iff, type_eq_eq. intuition congruence. }
  split; [apply vname_equivalence|]. split; [apply of_equality, type_eq_eq|]. split; [apply of_equality, number_eq_eq|].
  split; [|split; [apply of_equality, expr_eq_eq|]].
  - split; [intros []|intros [] []|intros [] [] []]; cbn; try easy; rewrite ?andb_true_iff, ?T, ?str_eqb_eq; intuition congruence.
  - apply of_equality. intros [n p|f c e] [m q|g d h]; cbn; try easy; rewrite !andb_true_iff, ?vname_eqb_iff.
    + rewrite (option_eq_eq _ str_eqb_eq). intuition congruence.
    + rewrite (option_eq_eq _ format_eq_eq), (option_eq_eq _ vname_eqb_iff), (option_eq_eq _ (fun x y => expr_eq_eq x y)). intuition congruence.
Qed.
Print Assumptions C100_equivalences.

(** [==] is equality, but for captures of everything, whose type it does not look at. *)
Theorem C100_equal :
  (forall a b, vname_eqb a b = true <-> a = b) /\ (forall a b, type_eq a b = true <-> a = b) /\ (forall a b, number_eq a b = true <-> a = b) /\
  (forall a b, capture_eq a b = true <-> a = b \/ exists t u, a = CAll t /\ b = CAll u) /\ (forall a b, expr_eq a b = true <-> a = b) /\
  (forall a b, amatch_eq a b = true <-> a = b).
Proof.
  assert (T : forall x y, typed_eq x y = true <-> x = y).
  { intros [v t] [w u]. unfold typed_eq; cbn. rewrite andb_true_iff, vname_eqb_iff, type_eq_eq. intuition congruence. }
  split; [exact vname_eqb_iff|]. split; [exact type_eq_eq|]. split; [exact number_eq_eq|]. split; [|split; [intros a b; apply expr_eq_eq|]].
  - intros [|t|x|g x|x] [|u|y|h y|y]; cbn; rewrite ?andb_true_iff, ?T, ?str_eqb_eq; (split; [intros E|intros [E|(t' & u' & E & E')]]); try discriminate; try (left; intuition congruence);
      try (intuition congruence); right; eauto.
  - intros [n p|f c e] [m q|g d h]; cbn; try easy; rewrite !andb_true_iff, ?vname_eqb_iff.
    + rewrite (option_eq_eq _ str_eqb_eq). intuition congruence.
    + rewrite (option_eq_eq _ format_eq_eq), (option_eq_eq _ vname_eqb_iff), (option_eq_eq _ (fun x y => expr_eq_eq x y)). intuition congruence.
Qed.
Print Assumptions C100_equal.
(** The order takes two matches for the same exactly if they differ in nothing but the formats of numbers in expressions and
    in formats with the same digits. *)
Lemma expr_cmp_same x : forall y, expr_cmp x y = Eq <-> same_expr x y.
Proof.
  induction x as [n|v|o l IHl r IHr]; intros [m|w|p a b]; cbn; try (split; [discriminate|intros I; inversion I]).
  - unfold number_cmp. rewrite Z.compare_eq_iff. split; [now constructor|intros I; now inversion I].
  - rewrite name_eq, vname_eqb_iff. split; [intros ->; constructor|intros I; now inversion I].
  - rewrite !and_then_iff, IHl, IHr. split; [intros (E & L & R)|intros I; inversion I; subst].
    + assert (o = p) by (destruct o, p; (reflexivity || discriminate E)). subst. now constructor.
    + split; [now destruct p|now split].
Qed.
Lemma option_same e h : option_cmp expr_cmp e h = Eq <-> same_option same_expr e h.
Proof. destruct e, h; cbn; rewrite ?expr_cmp_same; split; intros I; try discriminate; try (now inversion I); now constructor. Qed.
Lemma texts a b : text_cmp a b = Eq <-> a = b.
Proof. rewrite text_eq. apply str_eqb_eq. Qed.
Theorem C100_same a b : amatch_cmp a b = Eq <-> same_match a b.
Proof.
  destruct a as [n [p|]|f [c|] e], b as [m [q|]|g [d|] h]; cbn [amatch_cmp option_cmp]; try destruct e; try destruct h; try (split; [discriminate|intros I; inversion I]);
    rewrite ?and_then_iff, ?texts, ?name_eq, ?vname_eqb_iff, ?option_same;
    try (split; [intros E; decompose [and] E; discriminate|intros I; inversion I]);
    (split; [intros E; decompose [and] E; subst; now constructor|intros I; inversion I; subst; auto]).
Qed.
Print Assumptions C100_same.

(** Matches are totally ordered if none of them is a definition by a regular expression ... *)
Theorem C100_matches_partial : lawful_on no_definition amatch_cmp.
Proof. exact law_match. Qed.
Print Assumptions C100_matches_partial.
(** ... and so are prefixes. *)
Theorem C100_prefixes_partial : lawful_on prefix_settled aprefix_cmp.
Proof. exact law_prefix. Qed.
Print Assumptions C100_prefixes_partial.

(** The prefixes of a check file are such, so that the map of CHECK-DAG and CHECK-NOT finds for every pattern
    the first one whose prefix equals it ([==] of the code). *)
Theorem C100_grouping (cs : list cpat) (c : cpat) :
  let prefix_of c := full_prefix (fst (pop_prefix (compact c))) in
  map_get aprefix_cmp (prefix_of c) (register aprefix_cmp 0 (map prefix_of cs) (fun k => k) [])
  = first_index aprefix_eq (prefix_of c) (map prefix_of cs) 0.
Proof.
  intros prefix_of.
  assert (S1 : forall c, prefix_settled (prefix_of c)) by (intro; apply kept_settled, prefix_kept).
  pose proof (register_finds law_prefix (map prefix_of cs) [] []) as R. cbn [List.length app] in R.
  apply R; [|constructor|reflexivity|apply S1].
  apply Forall_forall. intros p I. apply in_map_iff in I as (x & <- & _). apply S1.
Qed.
Print Assumptions C100_grouping.
(** This is how the model of the sets of patterns (PatSet_Model) recognises a prefix. *)
Theorem C100_model (c d : cpat) :
  let prefix_of c := fst (pop_prefix (compact c)) in
  aprefix_eq (full_prefix (prefix_of c)) (full_prefix (prefix_of d)) = prefix_eqb (prefix_of c) (prefix_of d).
Proof. intros prefix_of. apply prefix_same; apply prefix_kept. Qed.
Print Assumptions C100_model.

(** The order on matches goes in a circle: [[A:x]] before [[B]], [[B]] before [[#]], [[#]] before [[A:x]]. *)
Definition by_regex : amatch := ASubst (User (of_string "A")) (Some (of_string "x")).
Definition by_value : amatch := ASubst (User (of_string "B")) None.
Definition a_number : amatch := ANumeric None None None.
Theorem C100_match_refuted : ~ lawful amatch_cmp.
Proof.
  intros L. apply (chained _ _ L by_regex by_value a_number); try exact I; vm_compute; (discriminate || reflexivity).
Qed.
Print Assumptions C100_match_refuted.
Example circle : (amatch_cmp by_regex by_value, amatch_cmp by_value a_number, amatch_cmp a_number by_regex) = (Lt, Lt, Lt).
Proof. reflexivity. Qed.
(** A map with these three as keys does not find one of them. *)
Theorem C100_lost_key_refuted :
  ~ forall (keys : list amatch) (k : amatch), In k keys -> map_get amatch_cmp k (register amatch_cmp 0 keys (fun i => i) []) <> None.
Proof.
  intros H. apply (H [by_regex; by_value; a_number] by_value); [cbn; tauto|]. reflexivity.
Qed.
Print Assumptions C100_lost_key_refuted.
(** The order and [==] disagree: values that differ are taken for the same by every map and sort. *)
Theorem C100_equality_refuted :
  ~ consistent type_cmp type_eq /\ ~ consistent number_cmp number_eq /\ ~ consistent capture_cmp capture_eq
  /\ ~ consistent expr_cmp expr_eq /\ ~ consistent amatch_cmp amatch_eq.
Proof.
  assert (N : ~ consistent number_cmp number_eq) by (intros H; discriminate (proj1 (H (mkNum None 7) (mkNum (Some (Hex 0 true Upper)) 7)) eq_refl)).
  split; [|split; [exact N|split; [|split]]].
  - intros H. discriminate (proj1 (H (TyNum (Some (Hex 2 false Upper))) (TyNum (Some (Hex 2 true Lower)))) eq_refl).
  - intros H. discriminate (proj1 (H (CExplicit (User (of_string "A"), TyNum None)) (CExplicit (User (of_string "A"), TyNum (Some default_format)))) eq_refl).
  - intros H. discriminate (proj1 (H (XNum (mkNum None 7)) (XNum (mkNum (Some default_format) 7))) eq_refl).
  - intros H. discriminate (proj1 (H (ANumeric (Some (Unsigned 0)) None None) (ANumeric (Some (Unsigned 1)) None None)) eq_refl).
Qed.
Print Assumptions C100_equality_refuted.

(** Non-trivial cases *)
Example some_order :
  (type_cmp (TyNum None) (TyNum (Some (Signed 4))), name_cmp (Global (of_string "B")) (User (of_string "A")),
   expr_cmp (XBin OAdd (XVar (User (of_string "A"))) (XNum (mkNum None 1))) (XBin OAdd (XVar (User (of_string "A"))) (XNum (mkNum None 2))),
   aprefix_cmp (ARegex (of_string "ab") [CExplicit (User (of_string "A"), TyStr)]) (ALiteral (of_string "ab")))
  = (Gt, Lt, Lt, Gt).
Proof. reflexivity. Qed.
Example some_group :
  let cs := [PParts [QLit (of_string "foo"); QMatch (MSubst (User (of_string "X")) None)]; PLit (of_string "bar");
             PParts [QMatch (MNumeric None None (Some (PVar (User (of_string "N")))))]] in
  let prefix_of c := fst (pop_prefix (compact c)) in
  map (fun c => map_get aprefix_cmp (full_prefix (prefix_of c)) (register aprefix_cmp 0 (map (fun c => full_prefix (prefix_of c)) cs) (fun k => k) []))
    [PLit (of_string "foo"); PParts [QMatch (MNumeric None None (Some (PVar (User (of_string "N"))))); QLit (of_string ";")]; PLit (of_string "fo")]
  = [Some 0; Some 2; None].
Proof. reflexivity. Qed.
