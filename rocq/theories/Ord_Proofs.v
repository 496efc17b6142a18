(** Proofs about the comparisons of Ord_Model. *)
From Coq Require Import String.
From Verif Require Import Base Env_Model Num_Model Gram_Model Parse_Model Smart_Model PatSet_Model Ord_Model Ord_Spec.
Open Scope list_scope.
Open Scope nat_scope.

(** * Lawful orders in general *)
Section Law.
Context {A : Type} {P : A -> Prop} {c : A -> A -> comparison} (L : lawful_on P c).
Lemma law_refl x : P x -> c x x = Eq.
Proof using L. intros Px. pose proof (swapped _ _ L x x Px Px) as H. now destruct (c x x). Qed.
Lemma law_eq_l x y z : P x -> P y -> P z -> c x y = Eq -> c x z = c y z.
Proof using L.
  intros Px Py Pz E. assert (E' : c y x = Eq) by (rewrite (swapped _ _ L x y), E by assumption; reflexivity).
  assert (N1 : c x z <> Gt -> c y z <> Gt) by (intro; apply (chained _ _ L y x z); try assumption; congruence).
  assert (N2 : c y z <> Gt -> c x z <> Gt) by (intro; apply (chained _ _ L x y z); try assumption; congruence).
  assert (N3 : c z x <> Gt -> c z y <> Gt) by (intro; apply (chained _ _ L z x y); try assumption; congruence).
  assert (N4 : c z y <> Gt -> c z x <> Gt) by (intro; apply (chained _ _ L z y x); try assumption; congruence).
  rewrite (swapped _ _ L x z Px Pz), (swapped _ _ L y z Py Pz) in N3, N4.
  destruct (c x z), (c y z); cbn in *; try reflexivity; exfalso.
  all: try (now apply N1; [discriminate|reflexivity]); try (now apply N2; [discriminate|reflexivity]);
       try (now apply N3; [discriminate|reflexivity]); try (now apply N4; [discriminate|reflexivity]).
Qed.
Lemma law_lt x y z : P x -> P y -> P z -> c x y = Lt -> c y z <> Gt -> c x z = Lt.
Proof using L.
  intros Px Py Pz E H. destruct (c x z) eqn:D; [|reflexivity|].
  - assert (c z x <> Gt) by (rewrite (swapped _ _ L x z), D by assumption; discriminate).
    exfalso. apply (chained _ _ L y z x Py Pz Px); try assumption. rewrite (swapped _ _ L x y), E by assumption. reflexivity.
  - exfalso. apply (chained _ _ L x y z Px Py Pz); try assumption. now rewrite E.
Qed.
End Law.

Lemma law_weaken {A} (P Q : A -> Prop) c : (forall x, Q x -> P x) -> lawful_on P c -> lawful_on Q c.
Proof. intros I L. split; intros; [apply (swapped _ _ L)|apply (chained _ _ L x y z)]; auto. Qed.
Lemma law_ext {A} (P : A -> Prop) c d : (forall x y, P x -> P y -> c x y = d x y) -> lawful_on P d -> lawful_on P c.
Proof.
  intros E L. split; intros.
  - rewrite !E by assumption. now apply (swapped _ _ L).
  - rewrite E in * by assumption. now apply (chained _ _ L x y z).
Qed.
Lemma law_key {A B} (f : A -> B) c : lawful c -> lawful (fun x y => c (f x) (f y)).
Proof. intros L. split; intros; [now apply (swapped _ _ L)|now apply (chained _ _ L (f x) (f y) (f z))]. Qed.
Lemma law_nat : lawful Nat.compare.
Proof.
  split; intros x y.
  - intros _ _. apply Nat.compare_antisym.
  - intros z _ _ _. rewrite !Nat.compare_gt_iff. lia.
Qed.
Lemma law_N : lawful N.compare.
Proof.
  split; intros x y.
  - intros _ _. apply N.compare_antisym.
  - intros z _ _ _. rewrite !N.compare_gt_iff. lia.
Qed.
Lemma law_Z : lawful Z.compare.
Proof.
  split; intros x y.
  - intros _ _. apply Z.compare_antisym.
  - intros z _ _ _. rewrite !Z.compare_gt_iff. lia.
Qed.
Definition pair_cmp {A B} (c : A -> A -> comparison) (d : B -> B -> comparison) (x y : A * B) : comparison :=
  and_then (c (fst x) (fst y)) (d (snd x) (snd y)).
Lemma law_pair {A B} (c : A -> A -> comparison) (d : B -> B -> comparison) : lawful c -> lawful d -> lawful (pair_cmp c d).
Proof.
  intros L M. split; unfold pair_cmp.
  - intros [x1 x2] [y1 y2] _ _; cbn. rewrite (swapped _ _ L x1 y1), (swapped _ _ M x2 y2) by easy. now destruct (c x1 y1).
  - intros [x1 x2] [y1 y2] [z1 z2] _ _ _; cbn. destruct (c x1 y1) eqn:E; cbn; intros H1 H2; [|..].
    + rewrite (law_eq_l L x1 y1 z1) by easy. destruct (c y1 z1); cbn in *; try easy. now apply (chained _ _ M x2 y2 z2).
    + rewrite (law_lt L x1 y1 z1); [easy..| |]; [assumption|]. intro G. rewrite G in H2. easy.
    + easy.
Qed.
Lemma law_list {A} (c : A -> A -> comparison) : lawful c -> lawful (list_cmp c).
Proof.
  intros L. split.
  - intros x y _ _. revert y. induction x as [|a x IH]; intros [|b y]; try reflexivity.
    cbn. rewrite (swapped _ _ L a b), IH by easy. now destruct (c a b).
  - intros x y z _ _ _. revert y z. induction x as [|a x IH]; intros [|b y] [|d z]; cbn; try easy.
    destruct (c a b) eqn:E; cbn; intros H1 H2.
    + rewrite (law_eq_l L a b d) by easy. destruct (c b d); cbn in *; try easy. eauto.
    + rewrite (law_lt L a b d); [easy..| |]; [assumption|]. intro G. rewrite G in H2. easy.
    + easy.
Qed.
Lemma law_option {A} (c : A -> A -> comparison) : lawful c -> lawful (option_cmp c).
Proof.
  intros L. split.
  - intros [x|] [y|] _ _; cbn; try reflexivity. now apply (swapped _ _ L).
  - intros [x|] [y|] [z|] _ _ _; cbn; try easy. now apply (chained _ _ L).
Qed.
Lemma law_text : lawful text_cmp.
Proof. apply law_list, law_N. Qed.
Lemma text_eq a : forall b, text_cmp a b = Eq <-> str_eqb a b = true.
Proof.
  induction a as [|x a IH]; intros [|y b]; cbn; try easy. rewrite andb_true_iff, <- IH, N.eqb_eq, <- N.compare_eq_iff. unfold text_cmp.
  destruct (x ?= y)%N; cbn; intuition easy.
Qed.

(** * Names, types, numbers, captures *)
Lemma law_name : lawful name_cmp.
Proof.
  apply (law_key (fun v => (name_rank v, name_text v)) (pair_cmp Nat.compare text_cmp)), law_pair; [apply law_nat|apply law_text].
Qed.
Lemma name_eq a b : name_cmp a b = Eq <-> vname_eqb a b = true.
Proof. destruct a, b; cbn; try easy; apply text_eq. Qed.
Lemma casing_eq_eq a b : casing_eq a b = true <-> a = b.
Proof. now destruct a, b. Qed.
Lemma format_eq_eq a b : format_eq a b = true <-> a = b.
Proof.
  destruct a, b; cbn; try easy; rewrite ?andb_true_iff, ?Nat.eqb_eq, ?eqb_true_iff, ?casing_eq_eq; intuition congruence.
Qed.
Definition type_key (t : vtype) : option (nat * (nat * nat)) :=
  match t with
  | TyStr => None
  | TyNum f => let f := match f with Some f => f | None => default_format end in
               Some (if Nat.eqb (precision f) 0 then 1 else 0, (precision f, discriminant f))
  end.
Definition key_cmp : option (nat * (nat * nat)) -> option (nat * (nat * nat)) -> comparison :=
  option_cmp (pair_cmp Nat.compare (pair_cmp Nat.compare Nat.compare)).
Lemma law_key_cmp : lawful key_cmp.
Proof. apply law_option, law_pair; [apply law_nat|]. apply law_pair; apply law_nat. Qed.
Lemma type_key_ok a b : type_cmp a b = key_cmp (type_key a) (type_key b).
Proof.
  destruct a as [|f], b as [|g]; try reflexivity. cbn [type_cmp type_key]. cbv zeta.
  set (x := match f with Some f => f | None => default_format end). set (y := match g with Some g => g | None => default_format end).
  clearbody x y. unfold key_cmp, option_cmp, pair_cmp; cbn [fst snd].
  destruct (format_eq x y) eqn:E.
  - apply format_eq_eq in E as ->. now rewrite !Nat.compare_refl.
  - destruct (precision x) as [|p], (precision y) as [|q]; reflexivity.
Qed.
Lemma law_type : lawful type_cmp.
Proof. apply (law_ext _ _ (fun a b => key_cmp (type_key a) (type_key b))); [intros; apply type_key_ok|]. apply law_key, law_key_cmp. Qed.
Lemma law_number : lawful number_cmp.
Proof. apply (law_key nvalue), law_Z. Qed.
Lemma law_typed : lawful typed_cmp.
Proof. apply (law_pair name_cmp type_cmp); [apply law_name|apply law_type]. Qed.
Definition capture_key (k : capture) : nat * (option typed * (nat * str)) :=
  match k with
  | CIgnore => (0, (None, (0, [])))
  | CAll _ => (1, (None, (0, [])))
  | CImplicit v => (2, (Some v, (0, [])))
  | CMapped g v => (3, (Some v, (0, g)))
  | CExplicit v => (3, (Some v, (1, [])))
  end.
Lemma and_then_Eq a : and_then a Eq = a.
Proof. now destruct a. Qed.
Lemma law_capture : lawful capture_cmp.
Proof.
  apply (law_ext _ _ (fun a b => pair_cmp Nat.compare (pair_cmp (option_cmp typed_cmp) (pair_cmp Nat.compare text_cmp)) (capture_key a) (capture_key b))).
  - intros [|s|v|g v|v] [|t|w|h w|w] _ _; try reflexivity; unfold pair_cmp; cbn; now rewrite ?and_then_Eq.
  - apply law_key, law_pair; [apply law_nat|]. apply law_pair; [apply law_option, law_typed|]. apply law_pair; [apply law_nat|apply law_text].
Qed.

(** * Expressions *)
(** An expression is compared like the list of what it consists of, from the outside to the inside. *)
Definition token := (nat * (Z * (nat * (nat * str))))%type.
Definition token_cmp : token -> token -> comparison :=
  pair_cmp Nat.compare (pair_cmp Z.compare (pair_cmp Nat.compare (pair_cmp Nat.compare text_cmp))).
Lemma law_token : lawful token_cmp.
Proof.
  apply law_pair; [apply law_nat|]. apply law_pair; [apply law_Z|]. apply law_pair; [apply law_nat|]. apply law_pair; [apply law_nat|apply law_text].
Qed.
Fixpoint tokens (e : expr) : list token :=
  match e with
  | XNum n => [(0, (nvalue n, (0, (0, []))))]
  | XVar v => [(1, (0%Z, (0, (name_rank v, name_text v))))]
  | XBin o l r => (2, (0%Z, (op_rank o, (0, [])))) :: tokens l ++ tokens r
  end.
Lemma and_then_assoc a b d : and_then (and_then a b) d = and_then a (and_then b d).
Proof. now destruct a. Qed.
Lemma tokens_ok x : forall y r s, list_cmp token_cmp (tokens x ++ r) (tokens y ++ s) = and_then (expr_cmp x y) (list_cmp token_cmp r s).
Proof.
  induction x as [n|v|o l IHl m IHm]; intros [n'|v'|o' l' m'] r s; try reflexivity.
  - cbn. unfold token_cmp, pair_cmp, number_cmp; cbn. now destruct (nvalue n ?= nvalue n')%Z.
  - cbn. unfold token_cmp, pair_cmp, op_cmp; cbn. rewrite <- !app_assoc, IHl, IHm. now destruct (op_rank o ?= op_rank o'), (expr_cmp l l').
Qed.
Lemma expr_tokens x y : expr_cmp x y = list_cmp token_cmp (tokens x) (tokens y).
Proof. rewrite <- (app_nil_r (tokens x)), <- (app_nil_r (tokens y)), tokens_ok. cbn. now rewrite and_then_Eq. Qed.
Lemma law_expr : lawful expr_cmp.
Proof.
  apply (law_ext _ _ (fun a b => list_cmp token_cmp (tokens a) (tokens b))); [intros; apply expr_tokens|]. apply law_key, law_list, law_token.
Qed.

(** * Matches and prefixes *)
Definition match_key (m : amatch) : nat * (str * (option vname * option expr)) :=
  match m with
  | ASubst n _ => (0, ([], (Some n, None)))
  | ANumeric f None e => (1, (digits_text f, (None, e)))
  | ANumeric f (Some n) e => (2, (digits_text f, (Some n, e)))
  end.
Definition mkey_cmp : nat * (str * (option vname * option expr)) -> nat * (str * (option vname * option expr)) -> comparison :=
  pair_cmp Nat.compare (pair_cmp text_cmp (pair_cmp (option_cmp name_cmp) (option_cmp expr_cmp))).
Lemma law_mkey : lawful mkey_cmp.
Proof.
  apply law_pair; [apply law_nat|]. apply law_pair; [apply law_text|]. apply law_pair; [apply law_option, law_name|apply law_option, law_expr].
Qed.
Lemma match_key_ok a b : no_definition a -> no_definition b -> amatch_cmp a b = mkey_cmp (match_key a) (match_key b).
Proof.
  destruct a as [n [p|]|f [k|] e], b as [m [q|]|g [j|] h]; cbn [no_definition]; try easy; intros _ _; unfold mkey_cmp, pair_cmp;
    cbn [amatch_cmp match_key fst snd]; cbn; rewrite ?and_then_Eq; try reflexivity; now destruct e || (now destruct h) || idtac.
Qed.
Lemma law_match : lawful_on no_definition amatch_cmp.
Proof.
  apply (law_ext _ _ (fun a b => mkey_cmp (match_key a) (match_key b))); [intros; now apply match_key_ok|].
  apply (law_weaken (fun _ => True)); [easy|]. apply law_key, law_mkey.
Qed.
Definition prefix_key (p : aprefix) : option (nat * (str * (option vname * option expr))) * (str * option (list capture)) :=
  match p with
  | AMatch m => (Some (match_key m), ([], None))
  | ARegex s (_ :: _ as cs) => (None, (s, Some cs))
  | p => (None, (aprefix_text p, None))
  end.
Definition pkey_cmp : option (nat * (str * (option vname * option expr))) * (str * option (list capture)) -> _ -> comparison :=
  pair_cmp (option_cmp mkey_cmp) (pair_cmp text_cmp (option_cmp (list_cmp capture_cmp))).
Lemma prefix_key_ok a b : prefix_settled a -> prefix_settled b -> aprefix_cmp a b = pkey_cmp (prefix_key a) (prefix_key b).
Proof.
  destruct a as [|s|s|s [|k cs]|m], b as [|t|t|t [|j ds]|n]; cbn [prefix_settled]; intros Ha Hb;
    unfold pkey_cmp, pair_cmp; cbn [prefix_key fst snd option_cmp and_then aprefix_text aprefix_cmp]; rewrite ?and_then_Eq; try reflexivity.
  now rewrite match_key_ok.
Qed.
Lemma law_prefix : lawful_on prefix_settled aprefix_cmp.
Proof.
  apply (law_ext _ _ (fun a b => pkey_cmp (prefix_key a) (prefix_key b))); [intros; now apply prefix_key_ok|].
  apply (law_weaken (fun _ => True)); [easy|].
  apply law_key, law_pair; [apply law_option, law_mkey|]. apply law_pair; [apply law_text|apply law_option, law_list, law_capture].
Qed.

(** * The map *)
Section MapFacts.
Context {K V : Type} {P : K -> Prop} {c : K -> K -> comparison} (L : lawful_on P c).
Notation keys m := (Forall (fun e : K * V => P (fst e)) m).
Lemma law_eq_r x y z : P x -> P y -> P z -> c x y = Eq -> c z x = c z y.
Proof using L.
  intros Px Py Pz E. rewrite (swapped _ _ L x z), (swapped _ _ L y z) by assumption. f_equal. now apply (law_eq_l L).
Qed.
Lemma get_insert q k (v : V) m : P q -> P k -> keys m ->
  map_get c q (map_insert c k v m) = match c q k with Eq => Some v | _ => map_get c q m end.
Proof using L.
  intros Pq Pk. induction m as [|[x w] r IH]; intros F.
  - cbn. now destruct (c q k).
  - inversion F as [|? ? Px Fr]; subst. cbn in Px. cbn [map_insert]. destruct (c k x) eqn:E.
    + cbn [map_get]. rewrite (law_eq_r k x q) by assumption. now destruct (c q x).
    + cbn [map_get]. destruct (c q k) eqn:E2; try reflexivity.
      rewrite (law_lt L q k x); [reflexivity|assumption..|]. now rewrite E.
    + cbn [map_get]. rewrite (IH Fr). destruct (c q x) eqn:E2; [| |now destruct (c q k)].
      * rewrite (law_eq_l L q x k) by assumption. rewrite (swapped _ _ L k x), E by assumption. reflexivity.
      * rewrite (law_lt L q x k); [reflexivity|assumption..|]. rewrite (swapped _ _ L k x), E by assumption. discriminate.
Qed.
Lemma insert_keys k (v : V) m : P k -> keys m -> keys (map_insert c k v m).
Proof using.
  intros Pk. induction m as [|[x w] r IH]; intros F; cbn; [now constructor|]. inversion F; subst.
  destruct (c k x); constructor; auto.
Qed.
Lemma get_same q k (m : list (K * V)) : P q -> P k -> keys m -> c q k = Eq -> map_get c q m = map_get c k m.
Proof using L.
  intros Pq Pk F E. induction F as [|[x w] r Px F IH]; [reflexivity|]. cbn. cbn in Px. rewrite (law_eq_l L q k x) by assumption. now rewrite IH.
Qed.
End MapFacts.
Lemma first_index_app {K} (same : K -> K -> bool) p l r k :
  first_index same p (l ++ r) k = match first_index same p l k with Some i => Some i | None => first_index same p r (k + List.length l) end.
Proof.
  revert k. induction l as [|x l IH]; intros k; cbn; [now rewrite Nat.add_0_r|]. destruct (same p x); [reflexivity|]. now rewrite IH, Nat.add_succ_r.
Qed.
Lemma register_finds {K} {P : K -> Prop} {c : K -> K -> comparison} (L : lawful_on P c) l :
  forall d m, Forall P l -> Forall (fun e : K * nat => P (fst e)) m ->
    (forall q, P q -> map_get c q m = first_index (fun x y => match c x y with Eq => true | _ => false end) q d 0) ->
    forall q, P q -> map_get c q (register c (List.length d) l (fun k => k) m) = first_index (fun x y => match c x y with Eq => true | _ => false end) q (d ++ l) 0.
Proof.
  induction l as [|p l IH]; intros d m F M I q Pq; cbn [register].
  - rewrite app_nil_r. now apply I.
  - inversion F as [|? ? Pp Fl]; subst.
    replace (d ++ p :: l) with ((d ++ [p]) ++ l) by now rewrite <- app_assoc.
    replace (S (List.length d)) with (List.length (d ++ [p])) by (rewrite app_length; cbn; lia).
    apply IH; try assumption.
    + destruct (map_get c p m); [assumption|]. now apply insert_keys.
    + intros x Px. rewrite first_index_app. cbn [first_index]. destruct (map_get c p m) as [i|] eqn:G.
      * rewrite (I x Px). destruct (first_index _ x d 0) eqn:D; [reflexivity|]. destruct (c x p) eqn:E; cbn; try reflexivity.
        pose proof (get_same L x p m Px Pp M E) as C. rewrite G, (I x Px), D in C. discriminate.
      * rewrite (get_insert L) by assumption. rewrite (I x Px). destruct (c x p) eqn:E; cbn.
        -- pose proof (get_same L x p m Px Pp M E) as C. rewrite G, (I x Px) in C. now rewrite C.
        -- now destruct (first_index _ x d 0).
        -- now destruct (first_index _ x d 0).
Qed.

(** * The prefixes of compacted patterns *)
Definition kept (m : pmatch) : Prop := match m with MSubst _ None | MNumeric _ _ (Some _) => True | _ => False end.
Definition part_kept (q : kpart) : Prop := match q with KMatch m => kept m | _ => True end.
Lemma pending_kept p : Forall part_kept (pending_part p).
Proof. unfold pending_part. destruct (p_text p); [constructor|]. destruct (p_lit p); repeat constructor. Qed.
Lemma compact_one_kept st q : Forall part_kept (fst st) -> Forall part_kept (fst (compact_one st q)).
Proof.
  destruct st as [out p]; cbn [fst]. intros F. destruct q as [s|s|[n [re|]|f [n|] [e|]]]; cbn; try assumption;
    apply Forall_app; (split; [assumption|]); apply Forall_app; (split; [apply pending_kept|repeat constructor]).
Qed.
Lemma compact_kept l : forall st, Forall part_kept (fst st) -> Forall part_kept (fst (fold_left compact_one l st)).
Proof. induction l as [|q l IH]; intros st F; cbn; [assumption|]. apply IH. now apply compact_one_kept. Qed.
Lemma prefix_kept c : match fst (pop_prefix (compact c)) with FMatch m => kept m | _ => True end.
Proof.
  destruct c as [|s|s|l]; try exact I. destruct l as [|q l]; [exact I|]. unfold compact.
  pose proof (compact_kept (q :: l) ([], nothing_pending) (Forall_nil _)) as F.
  destruct (fold_left compact_one (q :: l) ([], nothing_pending)) as [[|x out] p]; [now destruct (p_lit p)|].
  cbn [fst] in F. inversion F as [|? ? Kx _]; subst. cbn. now destruct x.
Qed.
Lemma kept_settled p : match p with FMatch m => kept m | _ => True end -> prefix_settled (full_prefix p).
Proof. now destruct p as [|s|s|s cs|[n [re|]|f c e]]. Qed.

(** What the model of the sets takes for equal is what the order takes for equal. *)
Lemma and_then_iff a b : and_then a b = Eq <-> a = Eq /\ b = Eq.
Proof. destruct a; cbn; intuition easy. Qed.
Lemma type_same a b : type_cmp a b = Eq <-> vtype_eqb a b = true.
Proof.
  destruct a as [|f], b as [|g]; cbn [type_cmp vtype_eqb]; try easy. unfold or_default. cbv zeta.
  set (x := match f with Some f => f | None => default_format end). set (y := match g with Some g => g | None => default_format end).
  clearbody x y. destruct (format_eq x y) eqn:E.
  - apply format_eq_eq in E as ->. rewrite Nat.eqb_refl. destruct y; cbn; easy.
  - rewrite andb_true_iff, Nat.eqb_eq. destruct (precision x) as [|p] eqn:Ex, (precision y) as [|q] eqn:Ey; cbn [Nat.eqb andb Nat.ltb Nat.leb].
    + cbn. rewrite Nat.compare_eq_iff. destruct x, y; cbn; intuition easy.
    + cbn. intuition easy.
    + cbn. intuition easy.
    + cbn. rewrite and_then_iff, !Nat.compare_eq_iff. destruct x, y; cbn; intuition (easy || lia).
Qed.
Lemma captures_same cs : forall ds, list_cmp capture_cmp (map (fun k => CExplicit (k_name k, k_ty k)) cs) (map (fun k => CExplicit (k_name k, k_ty k)) ds) = Eq
  <-> list_eqb capt_eqb cs ds = true.
Proof.
  induction cs as [|x cs IH]; intros [|y ds]; cbn; try easy.
  unfold typed_cmp, capt_eqb; cbn. rewrite !and_then_iff, !andb_true_iff, IH, name_eq, type_same. tauto.
Qed.
Lemma op_same o p : op_cmp o p = Eq <-> binop_eqb o p = true.
Proof. destruct o, p; cbn; easy. Qed.
Lemma expr_same x : forall y, expr_cmp (full_expr x) (full_expr y) = Eq <-> pexpr_eqb x y = true.
Proof.
  induction x as [n|v|o l IHl r IHr]; intros [m|w|p a b]; cbn; try easy.
  - unfold number_cmp; cbn. rewrite Z.compare_eq_iff, Z.eqb_eq. tauto.
  - apply name_eq.
  - rewrite !and_then_iff, !andb_true_iff, op_same, IHl, IHr. tauto.
Qed.
Lemma digits_same f g : text_cmp (digits_text f) (digits_text g) = Eq <-> str_eqb (format_pattern f None) (format_pattern g None) = true.
Proof.
  rewrite text_eq, !str_eqb_eq. unfold digits_text, format_pattern, named.
  split; intros E.
  - repeat (apply app_inv_head in E). apply app_inv_tail in E. now rewrite E.
  - apply app_inv_head, app_inv_tail in E. now rewrite E.
Qed.
Lemma match_same a b : kept a -> kept b -> amatch_cmp (full_match a) (full_match b) = Eq <-> match_eqb a b = true.
Proof.
  destruct a as [n [p|]|f c [e|]], b as [m [q|]|g d [h|]]; cbn [kept]; try easy; intros _ _.
  - cbn. rewrite name_eq. now rewrite andb_true_r.
  - cbn. now destruct c.
  - destruct c as [c|], d as [d|]; cbn [full_match amatch_cmp option_map match_eqb option_eqb option_cmp];
      rewrite ?and_then_iff, ?andb_true_iff, ?digits_same, ?name_eq, ?expr_same; intuition easy.
Qed.
Lemma prefix_same p q : match p with FMatch m => kept m | _ => True end -> match q with FMatch m => kept m | _ => True end ->
  aprefix_eq (full_prefix p) (full_prefix q) = prefix_eqb p q.
Proof.
  intros Kp Kq. unfold aprefix_eq. apply eq_true_iff_eq. transitivity (aprefix_cmp (full_prefix p) (full_prefix q) = Eq).
  { destruct (aprefix_cmp _ _); easy. }
  destruct p as [|s|s|s [|x cs]|m], q as [|t|t|t [|y ds]|n]; cbn [full_prefix prefix_eqb prefix_text aprefix_cmp aprefix_text map]; try easy;
    try apply text_eq; try (rewrite and_then_iff; easy).
  - rewrite and_then_iff, andb_true_iff, text_eq. change (_ :: map _ cs) with (map (fun k => CExplicit (k_name k, k_ty k)) (x :: cs)). change (_ :: map _ ds) with (map (fun k => CExplicit (k_name k, k_ty k)) (y :: ds)). rewrite captures_same. tauto.
  - now apply match_same.
Qed.
