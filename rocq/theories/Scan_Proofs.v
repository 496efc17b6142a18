(** Proofs for C83. *)
From Coq Require Import String.
From Verif Require Import Base Text_Model Cursor_Model Check_Model Lit_Model Lit_Spec Env_Model Num_Model Num_Spec Num_Proofs Gram_Model Sum_Spec Parse_Model
  Regex_Model Regex_Spec Regex_Proofs Regex_Engine Regex_Frame Smart_Model Smart_Spec Smart_Static Smart_Parts Smart_Props Chain_Spec Chain_Proofs Chain_Search Chain_Fixed Chain_Props Choice_Spec Choice_Proofs Choice_Parts Choice_Props Scan_Spec Scan_Number.
From Verif Require Lit_Proofs.
Open Scope string_scope.
Open Scope list_scope.
Open Scope nat_scope.
Ltac splits := repeat match goal with |- _ /\ _ => split end.

(** * Compiling *)
Section Compile.
Context (ci strict : bool).
Notation E := ascii_engine.
Definition binds_of (cs : list capt) : list (op E) := map (fun c => OBind E (k_name c) (Some (k_ty c))) (rev cs).
Inductive seg_op : seg -> op E -> list (op E) -> Prop :=
| so_lit r : forallb is_literal r = true -> flat_map lit_text_of r <> [] -> seg_op (Fixed r) (OLit E (flat_map lit_text_of r)) []
| so_regex r ts n rs idx : parts_ok ci r ts n rs idx -> all_chosen ci r rs idx -> (forall f v, In (QMatch (MNumeric f (Some v) None)) r -> ci = true -> uncased (format_of f)) ->
    seg_op (Fixed r) (ORegex E (mkRx ci (cat rs) (None :: open_names ts)) (combine idx (flat_map part_caps r))) (binds_of (flat_map part_caps r))
| so_sub f x ty : match ty with Some g => g | None => None end = f -> seg_op (Shown f x) (OSub E x ty) []
| so_given f v x : compiles (format_lang (format_of f)) -> identifier (v_text v) -> seg_op (Given f v x) (ONum E f (Some (mkCapt v (TyNum f)))) [OCons E x; OBind E v (Some (TyNum f))].
Inductive cut_ops : list seg -> list (op E) -> Prop :=
| cu_nil : cut_ops [] []
| cu_cons g o bs gs ops : seg_op g o bs -> cut_ops gs ops -> cut_ops (g :: gs) (o :: bs ++ ops).
Lemma static_segments r l : Forall (static ci) r -> forall p, segments p (r ++ l) = segments (snd (fold_left compact_one r ([], p))) l.
Proof.
  induction 1 as [|q r Sq F IH]; intros p; [reflexivity|]. cbn [app segments fold_left]. rewrite (static_not_dynamic _ _ Sq). rewrite (compact_one_static [] p q) by (exact (static_not_dynamic _ _ Sq)). apply IH.
Qed.
Lemma parts_same r ts n rs idx ts' n' rs' idx' : NoDup (flat_map part_names r) -> parts_ok ci r ts n rs idx -> parts_ok ci r ts' n' rs' idx' -> ts = ts' /\ n = n' /\ rs = rs'.
Proof. intros D P P'. exact (flat_same _ _ _ _ _ _ _ (pso_flat _ _ _ _ _ _ P) (pso_flat _ _ _ _ _ _ P')). Qed.
Lemma run_lowered r : fixed_run ci strict r -> exists o bs, seg_op (Fixed r) o bs /\ lower_parts E ci strict (pending_part (snd (fold_left compact_one r ([], nothing_pending)))) = Val (o :: bs).
Proof.
  intros (Ne & F & Cs & D & Pl & Pr).
  destruct (compact_static ci r F nothing_pending) as (p' & -> & T & C & Li). cbn [snd]. cbn [nothing_pending p_caps p_lit app andb] in C, Li. change (as_regex nothing_pending) with (@nil N) in T. cbn [app] in T.
  assert (Nt : flat_map part_text r <> []).
  { destruct r as [|q r]; [easy|]. cbn [flat_map]. intros Z. apply app_eq_nil in Z as [Z _]. inversion F as [|? ? Sq _]; subst. destruct Sq; cbn [part_text] in Z.
    - destruct (Pl t (or_introl eq_refl)) as (N & _). apply N. now apply escape_nil.
    - exact (Pr s (or_introl eq_refl) Z).
    - discriminate.
    - cbn in Z. discriminate.
    - discriminate. }
  unfold pending_part. destruct (forallb is_literal r) eqn:Lr; rewrite Li.
  - unfold as_regex in T. rewrite Li in T. rewrite (literals_text r Lr) in T, Nt. apply escape_inj in T. rewrite <- T in *.
    destruct (p_text p') as [|c0 s0] eqn:Pt; [easy|]. rewrite <- Pt in *. exists (OLit E (flat_map lit_text_of r)), []. split; [apply so_lit; [exact Lr|rewrite <- T, Pt; discriminate]|].
    cbn [lower_parts lower_part]. unfold literal_text. rewrite canonical_same.
    + unfold nonempty. rewrite Pt. cbn [negb assert bind app]. now rewrite <- Pt, T.
    + destruct strict; [now left|]. right. rewrite T. intros I. apply in_flat_map in I as (q & Iq & I). destruct q as [t| |]; try (now elim I). destruct (Pl t Iq) as (_ & [X|X] & _); [discriminate|]. now apply X.
    + rewrite T. intros c I. apply in_flat_map in I as (q & Iq & I). destruct q as [t| |]; try (now elim I). destruct (Pl t Iq) as (_ & _ & X). now apply X.
  - unfold as_regex in T. rewrite Li in T. destruct (p_text p') as [|c0 s0] eqn:Pt; [now elim Nt|]. rewrite T, C. destruct (statics_chosen ci r F) as (ts & n & rs & idx & P & A).
    exists (ORegex E (mkRx ci (cat rs) (None :: open_names ts)) (combine idx (flat_map part_caps r))), (binds_of (flat_map part_caps r)). split; [now apply so_regex with n|].
    cbn [lower_parts lower_part]. unfold regex_ops, regex_of. cbn [rx_build ascii_engine].
    assert (B : build ci (flat_map part_text r) = Some (mkRx ci (cat rs) (None :: open_names ts))).
    { unfold build. destruct (pso_flat _ _ _ _ _ _ P) as (L & M & H). rewrite L. unfold parse_tokens. rewrite H.
      assert (Dt : distinct (some_names (open_names ts)) = true) by (apply distinct_nodup; now rewrite (pso_names _ _ _ _ _ _ P)).
      rewrite Dt. unfold alt. cbn [option_map f_alts f_cur fold_left bind]. now rewrite rev_involutive. }
    rewrite B. cbn [bind rx_groups ascii_engine]. destruct (static_built _ _ _ _ _ _ _ P B) as (_ & _ & Gr). rewrite Gr. cbn [bind]. rewrite app_nil_r. do 2 f_equal.
    unfold binds_of. rewrite !map_rev. f_equal. rewrite <- (map_map snd (fun c => OBind E (k_name c) (Some (k_ty c)))). f_equal. apply map_snd_combine. symmetry. eapply Forall2_len, (pso_own _ _ _ _ _ _ P).
Qed.
Lemma lower_both l1 l2 a c : lower_parts E ci strict l1 = Val a -> lower_parts E ci strict l2 = Val c -> lower_parts E ci strict (l1 ++ l2) = Val (a ++ c).
Proof.
  revert a. induction l1 as [|q l1 IH]; intros a A C; cbn [app lower_parts] in *; [now injection A as <-|]. destruct (lower_part E ci strict q) as [x| |]; try discriminate. cbn [bind] in *.
  destruct (lower_parts E ci strict l1) as [y| |]; try discriminate. cbn [bind] in A. injection A as <-. rewrite (IH _ eq_refl C). cbn [bind]. now rewrite app_assoc.
Qed.
Lemma cut_lowered l gs : cut_parts ci strict l gs -> exists ops, lower_parts E ci strict (segments nothing_pending l) = Val ops /\ cut_ops gs ops.
Proof.
  induction 1 as [|q f x l gs Su H (ops & L & F)|f v x l gs Cf Id H (ops & L & F)|r l gs R B H (ops & L & F)].
  - exists []. split; [reflexivity|constructor].
  - destruct Su as [v|f x].
    + exists (OSub E (PVar v) None :: [] ++ ops). split; [|apply cu_cons; [now apply so_sub|exact F]]. cbn [segments is_dynamic pending_part p_text nothing_pending app lower_parts lower_part lower_match bind]. now rewrite L.
    + exists (OSub E x (Some f) :: [] ++ ops). split; [|apply cu_cons; [now apply so_sub|exact F]]. cbn [segments is_dynamic pending_part p_text nothing_pending app lower_parts lower_part lower_match bind]. now rewrite L.
  - exists (ONum E f (Some (mkCapt v (TyNum f))) :: [OCons E x; OBind E v (Some (TyNum f))] ++ ops). split; [|apply cu_cons; [now apply so_given|exact F]].
    cbn [segments is_dynamic pending_part p_text nothing_pending app lower_parts lower_part lower_match bind]. now rewrite L.
  - destruct (run_lowered r R) as (o & bs & So & Lo). exists (o :: bs ++ ops). split; [|now apply cu_cons]. rewrite static_segments by apply R.
    destruct B as [->|(q & l' & -> & Dq)].
    + cbn [segments] in *. cbn in L. injection L as <-. now rewrite app_nil_r.
    + cbn [segments] in *. rewrite Dq in *. change (pending_part nothing_pending) with (@nil kpart) in L. cbn [app] in *. exact (lower_both _ _ (o :: bs) ops Lo L).
Qed.
End Compile.

(** * Values *)
Lemma valued_evaluates env ex n d z : valued env n d z -> (ex = None -> exists g, expr_format env d g) -> exists k, evaluate_expr n env ex d = RNum k /\ nvalue k = z.
Proof.
  intros H. induction H as [n k|n l|n x d z V H IH|n op a c x y z Ha IHa Hc IHc Op Ov]; intros Fm; cbn [evaluate_expr].
  - eauto.
  - eauto.
  - rewrite V. apply IH. intros E. destruct (Fm E) as (g & F). inversion F as [| |? d' ? V' F'|]; subst. assert (d' = d) by congruence. subst. eauto.
  - assert (Fa : ex = None -> exists g, expr_format env a g) by (intros E; destruct (Fm E) as (g & F); inversion F; subst; eauto).
    assert (Fc : ex = None -> exists g, expr_format env c g) by (intros E; destruct (Fm E) as (g & F); inversion F; subst; eauto).
    destruct (IHa Fa) as (ka & Ea & Va), (IHc Fc) as (kc & Ec & Vc). rewrite Ea, Ec, Va, Vc.
    assert (Ap : apply_op op x y = Some z).
    { destruct (may_overflow op) eqn:M; [apply op_means_apply; auto|]. destruct Op; try discriminate; reflexivity. }
    rewrite Ap. assert (I : exists f, match infer_format (nformat ka) (nformat kc) with Some f => Some f | None => ex end = Some f).
    { destruct (infer_format (nformat ka) (nformat kc)) eqn:If; [eauto|]. destruct ex as [f|]; [eauto|]. exfalso. destruct (Fm eq_refl) as (g & F). inversion F as [| | |? ? ? f1 f2 ? F1 F2 Mg]; subst.
      apply eval_format in Ea, Ec.
      assert (U : forall d g1, expr_format env d g1 -> forall g2, expr_format env d g2 -> g1 = g2).
      { clear. induction 1 as [n|l|x d g V H IH|op a b f1 f2 g H1 IH1 H2 IH2 M]; intros g2 H'; inversion H' as [| |? d' ? V' F'|? ? ? f1' f2' ? F1' F2' M']; subst; auto.
        - apply IH. assert (d' = d) by congruence. now subst.
        - rewrite <- (IH1 _ F1'), <- (IH2 _ F2') in M'. destruct M; inversion M'; subst; auto. }
      rewrite (U _ _ Ea _ F1), (U _ _ Ec _ F2) in If. clear -Mg If.
      assert (Ag : forall p q, agree p q -> prec_compatible p q = true) by (intros p q [H|[H|H]]; subst; unfold prec_compatible; rewrite ?Nat.eqb_refl, ?orb_true_r; reflexivity).
      destruct Mg as [|f|f|p q A|p q A|p q h k j A K]; cbn [infer_format] in If; try discriminate; try (destruct f; discriminate); rewrite (Ag _ _ A), ?Bool.eqb_reflx in If; try discriminate.
      destruct K as [K|[K|K]]; subst; [destruct j|destruct j|destruct k]; discriminate. }
    destruct I as (f & ->). eexists. split; reflexivity.
Qed.
Lemma evaluates_valued env ex n : forall d k, evaluate_expr n env ex d = RNum k -> valued env n d (nvalue k).
Proof.
  induction n as [|n IH]; intros d k; [discriminate|]. destruct d as [m|x|l|op a c]; cbn [evaluate_expr].
  - intros [= <-]. constructor.
  - destruct (env x) as [[| |d']|] eqn:V; try discriminate. intros H. eapply va_var; eauto.
  - intros [= <-]. exact (va_line env n l).
  - destruct (evaluate_expr n env ex a) as [ka| | | | | |] eqn:Ea; try discriminate; [|destruct (evaluate_expr n env ex c); discriminate]. destruct (evaluate_expr n env ex c) as [kc| | | | | |] eqn:Ec; try discriminate.
    destruct (match infer_format _ _ with Some f => Some f | None => ex end) as [f|]; [|discriminate]. destruct (apply_op op (nvalue ka) (nvalue kc)) as [z|] eqn:O; [|discriminate]. intros [= <-]. cbn [nvalue].
    apply va_bin with (nvalue ka) (nvalue kc); auto; [now apply apply_op_means|]. intros M.
    destruct op; try discriminate; cbn [apply_op] in O; try (destruct (Z.eqb _ 0); [discriminate|]); destruct (in_i128 _) eqn:X in O; try discriminate; injection O as <-; now apply in_i128_spec.
Qed.
Lemma texted_evaluates env ex n x s : texted env n x s -> evaluate_expr n env ex (EVar x) = RStr s.
Proof. induction 1 as [n x s V|n x y s V H IH]; cbn [evaluate_expr]; rewrite V; [reflexivity|exact IH]. Qed.
Lemma evaluates_texted env ex n : forall d s, evaluate_expr n env ex d = RStr s -> exists x, d = EVar x /\ texted env n x s.
Proof.
  induction n as [|k IH]; intros d s; [discriminate|]. cbn [evaluate_expr]. destruct d as [m|x|l|op a c]; try discriminate.
  - destruct (env x) as [[|t|d']|] eqn:V; try discriminate; [intros [= <-]; exists x; split; [easy|now apply te_here]|].
    intros H. apply IH in H as (y & -> & T). exists x. split; [easy|]. eapply te_there; eauto.
  - destruct (evaluate_expr k env ex a); try discriminate; destruct (evaluate_expr k env ex c); try discriminate.
    destruct (match infer_format _ _ with Some f => Some f | None => ex end); [|discriminate]. destruct (apply_op _ _ _); discriminate.
Qed.
Lemma names_eval line x : forall d, nexpr_of line x = Some d -> eval_of line x = d.
Proof.
  induction x as [m|v|op a IHa c IHc]; intros d H; cbn [nexpr_of eval_of] in *; [now injection H| |].
  - destruct v as [x|x|x]; [destruct (str_eqb _ _); [now injection H|discriminate]|now injection H..].
  - destruct (nexpr_of line a) as [a'|]; [|discriminate]. destruct (nexpr_of line c) as [c'|]; [|discriminate]. injection H as <-. now rewrite (IHa _ eq_refl), (IHc _ eq_refl).
Qed.
Definition text_shown (f : option format) (v : number + str) : str :=
  match v with inl n => display match f with Some g => mkNum (Some g) (nvalue n) | None => n end | inr s => s end.
Lemma shows_evaluated n line E f x t : shows n line E f x t -> exists v, evaluate n line E f x = Val v /\ text_shown f v = t.
Proof.
  unfold evaluate. intros [f' x' d z g Nx V Hf Hn|f' v y s N T].
  - rewrite (names_eval _ _ _ Nx). destruct (valued_evaluates (look_up E) f' n d z V) as (k & Ek & <-); [intros Ef; exists g; auto|]. rewrite Ek. exists (inl k). split; [reflexivity|]. cbn [text_shown].
    destruct f' as [g'|]; [now rewrite Hf|]. apply eval_format in Ek. f_equal. specialize (Hn eq_refl). destruct k as [h z]. cbn [nformat nvalue] in *. f_equal.
    clear -Ek Hn. revert h Ek. induction Hn as [m|l|x d g W H IH|op a b f1 f2 g H1 IH1 H2 IH2 M]; intros h H'; inversion H' as [| |? d' ? V' F'|? ? ? f1' f2' ? F1' F2' M']; subst; auto.
    + apply IH. assert (d' = d) by congruence. now subst.
    + rewrite (IH1 _ F1'), (IH2 _ F2') in M'. destruct M; inversion M'; subst; auto.
  - exists (inr s). split; [|reflexivity]. assert (Ev : eval_of line (PVar v) = EVar y) by (destruct N; reflexivity). rewrite Ev. now rewrite (texted_evaluates _ f' _ _ _ T).
Qed.
Lemma evaluated_shows n line E f x v : evaluate n line E f x = Val v -> shows n line E f x (text_shown f v).
Proof.
  unfold evaluate. destruct (evaluate_expr n (look_up E) f (eval_of line x)) as [k|s| | | | |] eqn:Ev; try discriminate; intros [= <-]; cbn [text_shown].
  - pose proof (eval_names n line E f x n k (le_n n) Ev) as Nx. pose proof (evaluates_valued _ _ _ _ _ Ev) as V. destruct f as [g|].
    + apply sw_number with (eval_of line x); auto. discriminate.
    + destruct k as [g z]. apply sw_number with (eval_of line x); auto; [congruence|]. intros _. now apply eval_format in Ev.
  - apply evaluates_texted in Ev as (y & Ey & T). apply eval_var in Ey as (v & -> & N). destruct N as [N|(r & ->)]; [now apply sw_text with y|]. exfalso. inversion T as [? ? ? V|? ? ? ? V]; discriminate V.
Qed.

(** the value of a constraint *)
Lemma counts_evaluated n line E x : counts n line E x -> exists k, evaluate n line E None x = Val (inl k).
Proof.
  intros (d & z & g & Nx & V & F). unfold evaluate. rewrite (names_eval _ _ _ Nx). destruct (valued_evaluates (look_up E) None n d z V) as (k & Ek & _); [eauto|]. rewrite Ek. eauto.
Qed.
Lemma evaluated_counts n line E x k : evaluate n line E None x = Val (inl k) -> counts n line E x.
Proof.
  unfold evaluate. destruct (evaluate_expr n (look_up E) None (eval_of line x)) as [m|s| | | | |] eqn:Ev; try discriminate. intros _.
  pose proof (eval_names n line E None x n m (le_n n) Ev) as Nx. pose proof (evaluates_valued _ _ _ _ _ Ev) as V. destruct m as [g z]. exists (eval_of line x), z, g. splits; auto. now apply eval_format in Ev.
Qed.
Lemma texted_text n line E v y t : env_name v y -> texted (look_up E) n y t -> evaluate n line E None (PVar v) = Val (inr t).
Proof.
  intros N T. unfold evaluate. assert (Ev : eval_of line (PVar v) = EVar y) by (destruct N; reflexivity). rewrite Ev. now rewrite (texted_evaluates _ None _ _ _ T).
Qed.
Lemma text_texted n line E x t : evaluate n line E None x = Val (inr t) -> exists v y, x = PVar v /\ env_name v y /\ texted (look_up E) n y t.
Proof.
  unfold evaluate. destruct (evaluate_expr n (look_up E) None (eval_of line x)) as [m|s| | | | |] eqn:Ev; try discriminate. intros [= <-].
  apply evaluates_texted in Ev as (y & Ey & T). apply eval_var in Ey as (v & -> & N). destruct N as [N|(r & ->)]; [eauto|]. exfalso. inversion T as [? ? ? V|? ? ? ? V]; discriminate V.
Qed.

(** * Searching *)
Section Search.
Context (ci : bool) (fuel : nat) (b : bytes) (line : Z) (e : nat) (Be : e <= length b).
Notation E := ascii_engine.
Notation stands := (stands_for ci fuel line).
Lemma lit_pieces r i j cs : forallb is_literal r = true -> pieces ci b e r i j cs -> i <= e -> text_at ci b (flat_map lit_text_of r) i /\ j = i + length (flat_map lit_text_of r) /\ j <= e /\ cs = [].
Proof.
  intros Lr H. induction H as [i|q l i k j cs ds P H IH]; intros Le.
  - cbn. splits; auto; try lia. intros k x Hx. destruct k; discriminate.
  - cbn [forallb] in Lr. apply andb_true_iff in Lr as [L1 L2]. destruct q as [t| |]; try discriminate. inversion P; subst. destruct (IH L2) as (T & -> & Lj & ->); auto. cbn [flat_map lit_text_of]. rewrite app_length. splits; auto; [|lia]. now apply text_at_app.
Qed.
Lemma pieces_lit r i : forallb is_literal r = true -> text_at ci b (flat_map lit_text_of r) i -> i + length (flat_map lit_text_of r) <= e ->
  chosen_pieces ci b e r i (i + length (flat_map lit_text_of r)) [] [].
Proof.
  revert i. induction r as [|q r IH]; intros i Lr T Le; [cbn; rewrite Nat.add_0_r; constructor|]. cbn [forallb] in Lr. apply andb_true_iff in Lr as [L1 L2]. destruct q as [t| |]; try discriminate.
  cbn [flat_map lit_text_of] in *. rewrite app_length in *. apply text_at_app in T as [T1 T2]. rewrite Nat.add_assoc. change (@nil (capt * str)) with (@nil (capt * str) ++ []). change (@nil bool) with (@nil bool ++ []).
  apply cps_cons with (i + length t); [apply pc_lit; auto; lia|constructor|]. apply IH; auto; lia.
Qed.
Lemma lit_choices r i j cs t : forallb is_literal r = true -> chosen_pieces ci b e r i j cs t -> t = [].
Proof. intros Lr H. induction H as [|q l i k j cs ds t u P C H IH]; [reflexivity|]. cbn [forallb] in Lr. apply andb_true_iff in Lr as [L1 L2]. destruct q; try discriminate. inversion C; subst. now rewrite IH. Qed.
Lemma lit_preferred r i : forallb is_literal r = true -> text_at ci b (flat_map lit_text_of r) i -> i + length (flat_map lit_text_of r) <= e -> preferred ci b e r i (i + length (flat_map lit_text_of r)) [].
Proof.
  intros Lr T Le. exists []. split; [now apply pieces_lit|]. intros j' cs' t' H. apply lit_choices in H; auto. subst t'. intros (p & x & y & X & _). destruct p; discriminate.
Qed.
Lemma preferred_pieces p i j cs : preferred ci b e p i j cs -> pieces ci b e p i j cs.
Proof. intros (t & H & _). now apply chosen_is in H. Qed.
(** what a piece captures *)
Definition capt_ok (c : capt * str) : Prop :=
  k_ty (fst c) = TyStr \/ exists f t, k_ty (fst c) = TyNum f /\ in_lang (format_lang (format_of f)) t /\ Forall2 (alike ci) t (snd c) /\ (ci = true -> uncased (format_of f)).
Lemma pieces_capts p i j cs : (forall f v, In (QMatch (MNumeric f (Some v) None)) p -> ci = true -> uncased (format_of f)) -> pieces ci b e p i j cs -> Forall capt_ok cs.
Proof.
  intros Un H. induction H as [i|q l i k j cs ds P H IH]; [constructor|]. apply Forall_app. split; [|apply IH; intros f v K; apply (Un f v); now right].
  destruct P as [| | | |f v ? ? t L1 L2 La Al]; first [apply Forall_nil|apply Forall_cons; [|apply Forall_nil]]; try (now left). right. exists f, t. cbn. splits; auto. apply (Un f v). now left.
Qed.
Definition place (p : list part) (a : bool) (s i j : nat) (cs : list (capt * str)) : Prop :=
  s <= i <= e /\ (a = true -> i = s) /\ preferred ci b e p i j cs /\ j <= e /\ (a = false -> forall k j' cs', s <= k < i -> ~ pieces ci b e p k j' cs').
Definition no_place (p : list part) (a : bool) (s : nat) : Prop := forall k j cs, s <= k <= e -> (a = true -> k = s) -> ~ pieces ci b e p k j cs.
Definition spans_of (spans : list (range * capt)) (cs : list (capt * str)) : Prop := Forall2 (fun rc c => snd rc = fst c /\ text_of b (fst rc) = snd c) spans cs.
Lemma regex_place p rs idx ts n a s : parts_ok ci p ts n rs idx -> all_chosen ci p rs idx ->
  match re_search (mkRx ci (cat rs) (None :: open_names ts)) b (mkRange s e) a with
  | Some l => exists i j t cs, l = Some (mkRange i j) :: t /\ place p a s i j cs /\ map fst cs = flat_map part_caps p /\ spans_of (capture_spans (combine idx (flat_map part_caps p)) l) cs
  | None => no_place p a s
  end.
Proof.
  intros Po A. assert (P : proper (cat rs)) by (apply cat_proper; eapply flat_proper; exact (pso_flat _ _ _ _ _ _ Po)).
  assert (Lg : forall i j cs, i <= e -> pieces ci b e p i j cs -> lang ci b e (cat rs) i j) by (intros i j cs Li H; exact (pso_lang _ _ _ _ _ _ Po b e i j cs Be Li H)).
  destruct (re_search _ b (mkRange s e) a) as [l|] eqn:S0.
  - apply search_some in S0 as (i & j & g & -> & Li & An & R & (tl & En) & Lm); [|exact P]. cbn [rstart rend x_ci x_re x_names] in *.
    destruct (first_preferred ci p rs idx b e i j g tl P A Be (proj2 Li) En) as (cs & Pf & Ec & Fc). eexists i, j, _, cs. split; [reflexivity|]. unfold place. splits; auto; try lia.
    + apply (proj1 (run_lang _ _ _)) in R. apply (proj1 (lang_bounds _ _ _)) in R. lia.
    + intros Ea k j' cs' K H. apply Lg in H; [|lia]. revert H. apply nil_lang; [now apply Lm|lia].
    + exact (spans_spec _ _ _ _ _ _ b i j g cs Po Ec Fc).
  - intros k j cs K Ka H. apply Lg in H; [|lia]. revert H. apply nil_lang; [|lia]. apply (search_none _ _ _ _ S0); cbn [rstart rend]; [destruct a; [rewrite Ka by reflexivity; lia|lia]|lia].
Qed.
End Search.
(** a number that is read, for a definition with a constraint *)
Lemma number_nonempty f t : in_lang (format_lang f) t -> t <> [].
Proof.
  intros (sg & ds & -> & _ & _ & Lo) Z. apply app_eq_nil in Z as [_ Z]. apply app_eq_nil in Z as [_ Z]. subst ds. cbn [List.length] in Lo. destruct f as [[|p]|[|p]|[|p] [] c]; cbn [format_lang lo Nat.eqb] in Lo; lia.
Qed.
Lemma define_piece ci b e f v i j cs : pieces ci b e [QMatch (MNumeric f (Some v) None)] i j cs -> i < j /\ j <= e /\ cs = [(mkCapt v (TyNum f), between b i j)].
Proof.
  intros H. inversion H as [|? ? ? k ? c1 c2 P1 P2]; subst. inversion P2; subst. inversion P1 as [| | | |? ? ? ? t L1 L2 I A]; subst. splits; auto.
  apply number_nonempty in I. destruct (Nat.eq_dec i j) as [->|]; [|lia]. exfalso. unfold between in A. rewrite Nat.sub_diag in A. cbn in A. inversion A; subst. now apply I.
Qed.
Section Given.
Context (ci : bool) (fuel : nat) (b : bytes) (line : Z) (e : nat) (Be : e <= length b).
Notation E := ascii_engine.
Lemma given_place f v x a s m : compiles (format_lang (format_of f)) -> identifier (v_text v) -> s <= e ->
  let p := [QMatch (MNumeric f (Some v) None)] in
  match_part E ci fuel b line (ONum E f (Some (mkCapt v (TyNum f)))) (mkRange s e) a m = Val None /\ (no_place false b e p a s \/ exists i k cs, place false b e p a s i k cs /\ ~ readable (Given f v x) cs) \/
  exists i j z, match_part E ci fuel b line (ONum E f (Some (mkCapt v (TyNum f)))) (mkRange s e) a m =
      Val (Some (mkRange i j, mkMach (VNum (ENum (mkNum (Some (format_of f)) z)) :: Smart_Model.x_stack m) (x_got m ++ [(mkRange i j, mkCapt v (TyNum f))]) (Smart_Model.x_env m))) /\
    place false b e p a s i j [(mkCapt v (TyNum f), between b i j)] /\ parse_with_format (between b i j) (format_of f) = POk z.
Proof.
  intros C Id Ls p. cbn [match_part].
  destruct (slice b (mkRange s e)) as [s0|] eqn:Sl; [|exfalso; unfold slice in Sl; cbn [rstart rend] in Sl; destruct (Nat.leb_spec s e), (Nat.leb_spec e (length b)); cbn in Sl; try discriminate; lia].
  cbn [unwrap bind]. destruct s0 as [|c0 s0].
  { left. split; [reflexivity|]. left. assert (e = s). { unfold slice in Sl. cbn [rstart rend] in Sl. destruct (_ && _); [|discriminate]. injection Sl as Sl. apply (f_equal (@length _)) in Sl. rewrite firstn_length, skipn_length in Sl. cbn in Sl. lia. }
    subst e. intros k j cs K _ H. apply define_piece in H as (H & Hj & _). lia. }
  clear Sl c0 s0. cbn [rx_build ascii_engine option_map k_name]. assert (Sq : Forall (static false) p) by (constructor; [now apply st_num_def|constructor]).
  destruct (statics_chosen false p Sq) as (ts & n & rs & idx & P & A). assert (Et : format_pattern f (Some (v_text v)) = flat_map part_text p) by (cbn; now rewrite app_nil_r).
  assert (B : build false (flat_map part_text p) = Some (mkRx false (cat rs) (None :: open_names ts))).
  { unfold build. destruct (pso_flat _ _ _ _ _ _ P) as (L & M & H). rewrite L. unfold parse_tokens. rewrite H.
    assert (Dt : distinct (some_names (open_names ts)) = true) by (apply distinct_nodup; rewrite (pso_names _ _ _ _ _ _ P); cbn; repeat constructor; intros []).
    rewrite Dt. unfold alt. cbn [option_map f_alts f_cur fold_left bind]. now rewrite rev_involutive. }
  rewrite Et, B. cbn [unwrap bind rx_search ascii_engine]. pose proof (regex_place false b e Be p rs idx ts n a s P A) as X.
  destruct (re_search _ b (mkRange s e) a) as [l|]; [|left; split; [reflexivity|left; exact X]]. destruct X as (i & j & t & cs & -> & Pl & _).
  pose proof (define_piece _ _ _ _ _ _ _ _ (preferred_pieces _ _ _ _ _ _ _ (proj1 (proj2 (proj2 Pl))))) as (Lij & Lj & ->).
  fold (format_of f). change (text_of b (mkRange i j)) with (between b i j). destruct (parse_with_format (between b i j) (format_of f)) as [z|er] eqn:Pz.
  - right. exists i, j, z. splits; auto.
  - left. split; [reflexivity|]. right. exists i, j. eexists. split; [exact Pl|]. intros R. destruct (R _ (or_introl eq_refl)) as (z & Z). cbn [snd] in Z. congruence.
Qed.
End Given.
Section Search2.
Context (ci : bool) (fuel : nat) (b : bytes) (line : Z) (e : nat) (Be : e <= length b).
Notation E := ascii_engine.
Notation stands := (stands_for ci fuel line).
Notation follow := (follow ci fuel line b e).
Notation taken := (taken ci fuel line b e).
Notation scan := (scan ci fuel line b e).
Notation place := (place ci b e).
Notation no_place := (no_place ci b e).
Notation spans_of := (spans_of b).
Notation capt_ok := (capt_ok ci).
Definition pushed (m : mach) (spans : list (range * capt)) : mach := mkMach (rev (map (fun c => VStr (text_of b (fst c))) spans) ++ Smart_Model.x_stack m) (x_got m ++ spans) (Smart_Model.x_env m).
Lemma pushed_none m : pushed m [] = m.
Proof. unfold pushed. cbn. rewrite app_nil_r. now destruct m. Qed.
Lemma part_place g o bs p a s m : is_given g = false -> seg_op ci g o bs -> stands (Smart_Model.x_env m) g p ->
  match_part E ci fuel b line o (mkRange s e) a m = Val None /\ no_place p a s \/
  exists i j cs spans, match_part E ci fuel b line o (mkRange s e) a m = Val (Some (mkRange i j, pushed m spans)) /\ place p a s i j cs /\ spans_of spans cs /\
    bs = binds_of (map fst cs) /\ Forall capt_ok cs.
Proof.
  intros Gv So Sf. destruct So as [r Lr Nt|r ts n rs idx P A Cs|f x ty Ty|]; [| | |discriminate]; inversion Sf as [|? ? t y Sh Bx|]; subst.
  - assert (No : forall i j, match_part E ci fuel b line (OLit E (flat_map lit_text_of p)) (mkRange s e) a m = Val (Some (mkRange i j, m)) -> place p a s i j [] ->
      exists i j cs spans, match_part E ci fuel b line (OLit E (flat_map lit_text_of p)) (mkRange s e) a m = Val (Some (mkRange i j, pushed m spans)) /\ place p a s i j cs /\ spans_of spans cs /\
        [] = binds_of (map fst cs) /\ Forall capt_ok cs).
    { intros i j R Pl. exists i, j, [], []. rewrite pushed_none. splits; auto; constructor. }
    cbn [match_part rstart rend] in *. destruct (flat_map lit_text_of p) as [|c0 s0] eqn:Et; [easy|]. rewrite <- Et in *.
    assert (Tx : lit_text (mkLit c0 s0 0) = flat_map lit_text_of p) by (unfold lit_text; cbn [lit_hd lit_tl]; now rewrite Et).
    assert (Pc : forall k j cs, k <= e -> pieces ci b e p k j cs -> k + length (flat_map lit_text_of p) <= e /\ text_at ci b (flat_map lit_text_of p) k) by (intros k j cs K H; apply lit_pieces in H as (T & -> & Lj & _); auto).
    assert (Lt : 0 < length (flat_map lit_text_of p)) by (rewrite Et; cbn; lia).
    destruct a.
    + cbn [leftmost] in *. destruct (occurs ci b e s (flat_map lit_text_of p)) eqn:Oc.
      * right. apply Lit_Proofs.occurs_spec in Oc as [Oc1 Oc2]. eapply No; [reflexivity|]. unfold place. splits; auto; try lia; now apply lit_preferred.
      * left. split; [reflexivity|]. intros k j cs K Ka H. rewrite (Ka eq_refl) in *. apply Pc in H as [H1 H2]; [|lia]. assert (X : occurs ci b e s (flat_map lit_text_of p) = true) by (now apply Lit_Proofs.occurs_spec). congruence.
    + destruct (Nat.le_gt_cases s e) as [Ls|Ls].
      * pose proof (Lit_Proofs.leftmost_spec ci b (mkLit c0 s0 0) e (e - s) s ltac:(lia)) as Lm. rewrite Tx in Lm. destruct (leftmost ci b (flat_map lit_text_of p) e (e - s) s) as [i|].
        -- destruct Lm as [(K1 & K2 & K3) Lm]. rewrite Tx in K2, K3. right. eapply No; [reflexivity|]. unfold place. splits; auto; try lia; try discriminate; try (now apply lit_preferred).
           intros _ k j' cs K H. apply Pc in H as [H1 H2]; [|lia]. assert (X : i <= k); [|lia]. apply Lm. unfold occurrence. rewrite Tx. splits; auto; lia.
        -- left. split; [reflexivity|]. intros k j cs K _ H. apply Pc in H as [H1 H2]; [|lia]. apply (Lm k). unfold occurrence. rewrite Tx. splits; auto; lia.
      * left. replace (e - s) with 0 by lia. split; [reflexivity|]. intros k j cs K. lia.
  - pose proof (regex_place ci b e Be p rs idx ts n a s P A) as X.
    cbn [match_part rx_search ascii_engine]. destruct (re_search _ b (mkRange s e) a) as [l|]; [|left; split; [reflexivity|exact X]]. destruct X as (i & j & t & cs & -> & Pl & Ec & Sp). right.
    eexists i, j, cs, _. split; [reflexivity|]. splits; auto; [now rewrite Ec|]. apply (pieces_capts ci b e p i j cs Cs). apply preferred_pieces. apply Pl.
  - destruct (shows_evaluated _ _ _ _ _ _ Sh) as (v & Ev & Tx). pose proof (build_proper _ _ _ Bx) as [Px Cx].
    assert (Px' : proper (cat [x_re y])) by (apply pr_cat; [exact Px|apply pr_eps]).
    assert (Eq : forall i, ends ci b e (cat [x_re y]) i no_caps = ends ci b e (x_re y) i no_caps).
    { intros i. cbn [cat fold_right ends]. generalize (ends ci b e (x_re y) i no_caps). induction l as [|[k h] tl IH]; [reflexivity|]. cbn [flat_map app fst snd]. now rewrite IH. }
    assert (X : match re_search y b (mkRange s e) a with Some l => exists i j t0, l = Some (mkRange i j) :: t0 /\ place [QRegex t] a s i j [] | None => no_place [QRegex t] a s end).
    { assert (One : forall i j cs, pieces ci b e [QRegex t] i j cs -> lang ci b e (x_re y) i j).
      { intros i j cs H. inversion H as [|? ? ? k ? c1 c2 P1 P2]; subst. inversion P2; subst. inversion P1 as [|? y' ? ? By Ly| | |]; subst. assert (y' = y) by congruence. now subst y'. }
      destruct (re_search y b (mkRange s e) a) as [l|] eqn:S0.
      - apply search_some in S0 as (i & j & g & -> & Li & An & R & (tl & En) & Lm); [|exact Px]. cbn [rstart rend] in *. rewrite Cx in *. exists i, j. eexists. split; [reflexivity|]. rewrite <- Eq in En.
        destruct (first_preferred ci [QRegex t] [x_re y] [] b e i j g tl Px' (regex_chosen ci t y Bx) Be (proj2 Li) En) as (cs & Pf & Ec & _). cbn in Ec. apply map_eq_nil in Ec. subst cs. unfold place. splits; auto; try lia.
        + apply (proj1 (run_lang _ _ _)) in R. apply (proj1 (lang_bounds _ _ _)) in R. lia.
        + intros Ea k j' cs K H. apply One in H. revert H. apply nil_lang; [now apply Lm|lia].
      - intros k j cs K Ka H. apply One in H. revert H. rewrite <- Cx. apply nil_lang; [|lia]. apply (search_none _ _ _ _ S0); cbn [rstart rend]; [destruct a; [rewrite Ka by reflexivity; lia|lia]|lia]. }
    cbn [match_part]. rewrite Ev. cbn [bind]. fold (text_shown (match ty with Some g => g | None => None end) v). rewrite Tx. unfold regex_of. cbn [rx_build ascii_engine]. rewrite Bx. cbn [bind rx_search ascii_engine].
    destruct (re_search y b (mkRange s e) a) as [l|]; [|left; split; [reflexivity|exact X]]. destruct X as (i & j & t0 & -> & Pl). right. exists i, j, [], []. rewrite pushed_none. splits; auto; constructor.
Qed.
Lemma part_stands g o bs a s m h : seg_op ci g o bs -> match_part E ci fuel b line o (mkRange s e) a m = Val h -> exists p, stands (Smart_Model.x_env m) g p.
Proof.
  intros So H. destruct So as [r Lr Nt|r ts n rs idx P A Cs|f x ty Ty|f v x Cf Id]; [exists r; constructor..| |eexists; constructor]. cbn [match_part] in H. rewrite Ty in H.
  destruct (evaluate fuel line (Smart_Model.x_env m) f x) as [v| |] eqn:Ev; try discriminate. cbn [bind] in H. fold (text_shown f v) in H. apply evaluated_shows in Ev.
  unfold regex_of in H. cbn [rx_build ascii_engine] in H. destruct (build ci (text_shown f v)) as [y|] eqn:B; [|discriminate]. exists [QRegex (text_shown f v)]. now apply sf_shown with y.
Qed.
Lemma stands_one E0 g p p' : stands E0 g p -> stands E0 g p' -> p = p'.
Proof.
  intros [r|f x t y Sh B|f v x] H; inversion H as [|? ? t' y' Sh' B'|]; subst; [reflexivity| |reflexivity]. apply shows_evaluated in Sh as (v & Ev & <-), Sh' as (v' & Ev' & <-). rewrite Ev in Ev'. now injection Ev' as <-.
Qed.
(** where a piece is preferred there is one, and only one *)
Lemma piece_one g o bs E0 p i j cs j' cs' : seg_op ci g o bs -> stands E0 g p -> i <= e -> preferred (cased ci g) b e p i j cs -> preferred (cased ci g) b e p i j' cs' -> j = j' /\ cs = cs'.
Proof.
  intros So Sf Li P P'. destruct So as [r Lr Nt|r ts n rs idx Po A Cs|f x ty Ty|f v x Cf Id]; inversion Sf as [|? ? t y Sh Bx|]; subst.
  - apply preferred_pieces in P, P'. apply lit_pieces in P as (_ & -> & _ & ->); auto. apply lit_pieces in P' as (_ & -> & _ & ->); auto.
  - exact (preferred_one ci p rs idx b e i j cs j' cs' A Be Li P P').
  - exact (preferred_one ci _ _ _ b e i j cs j' cs' (regex_chosen ci t y Bx) Be Li P P').
  - destruct (statics_chosen false [QMatch (MNumeric f (Some v) None)]) as (ts & n & rs & idx & _ & A); [constructor; [now apply st_num_def|constructor]|].
    exact (preferred_one false _ _ _ b e i j cs j' cs' A Be Li P P').
Qed.
(** binding *)
Definition noted (c : capt * str) : option value :=
  match k_ty (fst c) with TyStr => Some (VStr (snd c)) | TyNum f => match as_numeric (VStr (snd c)) f with Val n => Some (VNum (ENum n)) | _ => None end end.
Fixpoint note_all (cs : list (capt * str)) : option (list (vname * value)) :=
  match cs with [] => Some [] | c :: cs => match noted c, note_all cs with Some v, Some vs => Some ((k_name (fst c), v) :: vs) | _, _ => None end end.
Lemma noted_kept c v : capt_ok c -> (noted c = Some v <-> kept (k_ty (fst c)) (snd c) v /\ accepted c).
Proof.
  unfold noted, accepted. intros [Ty|(f & t & Ty & La & Al & Un)]; rewrite Ty; [split; [intros [= <-]; split; [constructor|exact I]|intros [K _]; now inversion K]|].
  destruct (number_noted ci f t (snd c) La Al Un) as [X _]. destruct (as_numeric (VStr (snd c)) f) as [n| |].
  - destruct (proj1 (X n) eq_refl) as (z & P & Sh & ->). split; [intros [= <-]; split; [now constructor|exact Sh]|]. intros [K _]. inversion K; subst. f_equal. congruence.
  - split; [discriminate|]. intros [K Sh]. inversion K; subst. assert (Z : @Err number = Val (mkNum f z)) by (apply X; eauto). discriminate.
  - split; [discriminate|]. intros [K Sh]. inversion K; subst. assert (Z : @Panic number = Val (mkNum f z)) by (apply X; eauto). discriminate.
Qed.
Lemma notes_kept cs vs : Forall capt_ok cs -> (note_all cs = Some vs <-> all_kept cs vs /\ Forall accepted cs).
Proof.
  intros F. revert vs. induction F as [|c cs H F IH]; intros vs; cbn [note_all].
  - split; [intros [= <-]; split; constructor|intros [K _]; now inversion K].
  - split.
    + destruct (noted c) as [v|] eqn:N; [|discriminate]. destruct (note_all cs) as [ws|]; [|discriminate]. intros [= <-]. apply (noted_kept c v H) in N as [K A]. destruct (proj1 (IH ws) eq_refl) as [Ks As].
      split; constructor; auto.
    + intros [K A]. inversion K as [|? [n v] ? ws [Kn Kv] Ks]; subst. inversion A; subst. cbn [fst snd] in *. assert (N : noted c = Some v) by (now apply noted_kept). rewrite N.
      assert (Ns : note_all cs = Some ws) by (now apply IH). now rewrite Ns, Kn.
Qed.
Lemma notes_app xs ys : note_all (xs ++ ys) = match note_all xs, note_all ys with Some a, Some c => Some (a ++ c) | _, _ => None end.
Proof. induction xs as [|x xs IH]; cbn [app note_all]; [now destruct (note_all ys)|]. rewrite IH. destruct (noted x), (note_all xs), (note_all ys); reflexivity. Qed.
Lemma notes_rev cs : note_all (rev cs) = option_map (@rev _) (note_all cs).
Proof. induction cs as [|c cs IH]; [reflexivity|]. cbn [rev]. rewrite notes_app, IH. cbn [note_all]. destruct (note_all cs), (noted c); reflexivity. Qed.
Lemma bind_texts cs ops j st got E0 : j < e -> Forall capt_ok cs ->
  match_parts E ci fuel b line (map (fun c => OBind E (k_name c) (Some (k_ty c))) (map fst cs) ++ ops) j e (mkMach (map (fun c => VStr (snd c)) cs ++ st) got E0) =
  match note_all cs with Some vs => match_parts E ci fuel b line ops j e (mkMach st got (defined E0 vs)) | None => Err end.
Proof.
  intros L F. revert E0. induction F as [|[c t] cs H F IH]; intros E0; [reflexivity|]. cbn [map app fst snd match_parts Smart_Model.x_stack x_got Smart_Model.x_env note_all].
  destruct (Nat.leb_spec e j); [lia|]. unfold noted. cbn [fst snd]. destruct H as [H|(f & t' & H & La & Al & Un)]; cbn [fst snd] in *; rewrite H.
  - cbn [bind]. rewrite IH. destruct (note_all cs); reflexivity.
  - destruct (number_noted ci f t' t La Al Un) as [_ Np]. destruct (as_numeric (VStr t) f) as [n| |]; [|reflexivity|congruence]. cbn [bind]. rewrite IH. destruct (note_all cs); reflexivity.
Qed.
Lemma binds_run cs spans ops j m : spans_of spans cs -> Forall capt_ok cs ->
  match_parts E ci fuel b line (binds_of (map fst cs) ++ ops) j e (pushed m spans) =
  match cs with
  | [] => match_parts E ci fuel b line ops j e (pushed m spans)
  | _ => if e <=? j then Val (inl j) else match note_all cs with Some vs => match_parts E ci fuel b line ops j e (mkMach (Smart_Model.x_stack m) (x_got m ++ spans) (defined (Smart_Model.x_env m) (rev vs))) | None => Err end
  end.
Proof.
  intros Sp F. assert (N : cs <> [] -> exists v t r, binds_of (map fst cs) = OBind E v t :: r).
  { intros N. unfold binds_of. destruct (exists_last N) as (l & x & ->). rewrite map_app, rev_app_distr. cbn. eauto. }
  assert (G : j < e -> match_parts E ci fuel b line (binds_of (map fst cs) ++ ops) j e (pushed m spans) =
    match note_all cs with Some vs => match_parts E ci fuel b line ops j e (mkMach (Smart_Model.x_stack m) (x_got m ++ spans) (defined (Smart_Model.x_env m) (rev vs))) | None => Err end).
  { intros L. unfold binds_of, pushed. rewrite <- (map_rev fst cs).
    assert (X : map (fun c : range * capt => VStr (text_of b (fst c))) spans = map (fun c => VStr (snd c)) cs) by (clear -Sp; induction Sp as [|rc c l1 l2 [A B] F IH]; [reflexivity|]; cbn [map]; now rewrite IH, B).
    rewrite X, <- (map_rev (fun c => VStr (snd c)) cs), bind_texts; [|exact L|now apply Forall_rev]. rewrite notes_rev. destruct (note_all cs); reflexivity. }
  destruct cs as [|c cs]; [reflexivity|]. destruct (Nat.leb_spec e j) as [L|L]; [|now apply G].
  destruct N as (v & t & r & ->); [discriminate|]. cbn [app match_parts]. destruct (Nat.leb_spec e j); [reflexivity|lia].
Qed.
Definition converts (got : list (range * capt)) : Prop := Forall (fun rc => exists v, convert (text_of b (fst rc)) (k_ty (snd rc)) = Some v) got.
Lemma converts_more got spans cs vs : converts got -> spans_of spans cs -> all_kept cs vs -> converts (got ++ spans).
Proof.
  intros G Sp F. apply Forall_app. split; [exact G|]. clear -Sp F. revert vs F. induction Sp as [|rc c l1 l2 [A B] S0 IH]; intros vs F; [constructor|]. inversion F as [|? v ? ws [_ K] Ks]; subst.
  constructor; [|eapply IH; eauto]. rewrite A, B. destruct K as [t|f t z P]; cbn [convert]; [eauto|]. fold (format_of f). rewrite P. eauto.
Qed.
(** what follows the first piece *)
Lemma taken_run cs spans bs ops j m : spans_of spans cs -> bs = binds_of (map fst cs) -> Forall capt_ok cs ->
  j <= e -> Smart_Model.x_stack m = [] ->
  converts (x_got m) ->
  match_parts E ci fuel b line (bs ++ ops) j e (pushed m spans) = Val (inl j) /\ cs <> [] /\ e <= j \/
  (cs <> [] -> j < e) /\ match note_all cs with
    | Some vs => exists got, converts got /\ match_parts E ci fuel b line (bs ++ ops) j e (pushed m spans) = match_parts E ci fuel b line ops j e (mkMach [] got (defined (Smart_Model.x_env m) (rev vs)))
    | None => match_parts E ci fuel b line (bs ++ ops) j e (pushed m spans) = Err end.
Proof.
  intros Sp -> F Lj Sm G. rewrite binds_run by assumption. destruct cs as [|c cs].
  - right. split; [congruence|]. inversion Sp; subst. exists (x_got m). split; auto. rewrite pushed_none. destruct m as [st got E0]. cbn in Sm. subst st. reflexivity.
  - destruct (Nat.leb_spec e j) as [L|L]; [left; splits; auto; discriminate|]. right. split; [auto|]. destruct (note_all (c :: cs)) as [vs|] eqn:Nt; [|reflexivity].
    apply (notes_kept _ _ F) in Nt as [K _]. exists (x_got m ++ spans). split; [now apply converts_more with (c :: cs) vs|]. now rewrite Sm.
Qed.
(** What is on the stack after a piece, and what follows it. *)
Definition after (g : seg) (bs : list (op E)) (cs : list (capt * str)) (m m' : mach) : Prop :=
  match g with
  | Given f v x => exists rg z, cs = [(mkCapt v (TyNum f), text_of b rg)] /\ parse_with_format (text_of b rg) (format_of f) = POk z /\
      m' = mkMach (VNum (ENum (mkNum (Some (format_of f)) z)) :: Smart_Model.x_stack m) (x_got m ++ [(rg, mkCapt v (TyNum f))]) (Smart_Model.x_env m)
  | _ => exists spans, m' = pushed m spans /\ spans_of spans cs /\ bs = binds_of (map fst cs) /\ Forall capt_ok cs
  end.
Lemma piece_place g o bs p a s m : seg_op ci g o bs -> stands (Smart_Model.x_env m) g p -> (is_given g = true -> s <= e) ->
  match_part E ci fuel b line o (mkRange s e) a m = Val None /\ (Scan_Proofs.no_place (cased ci g) b e p a s \/ exists i k cs, Scan_Proofs.place (cased ci g) b e p a s i k cs /\ ~ readable g cs) \/
  exists i j cs m', match_part E ci fuel b line o (mkRange s e) a m = Val (Some (mkRange i j, m')) /\ Scan_Proofs.place (cased ci g) b e p a s i j cs /\ readable g cs /\ after g bs cs m m'.
Proof.
  intros So Sf Ls. destruct (is_given g) eqn:Gv.
  - destruct So as [|? ? ? ? ? ? ? ?|? ? ? ?|f v x Cf Id]; try discriminate. inversion Sf; subst.
    destruct (given_place ci fuel b line e Be f v x a s m Cf Id (Ls eq_refl)) as [[R N]|(i & j & z & R & Pl & Pz)]; [left; auto|right].
    exists i, j. eexists _, _. split; [exact R|]. split; [exact Pl|]. split; [intros c [<-|[]]; eauto|]. exists (mkRange i j), z. splits; auto.
  - assert (Cg : cased ci g = ci) by (unfold cased; now rewrite Gv). rewrite Cg. destruct (part_place g o bs p a s m Gv So Sf) as [[R N]|(i & j & cs & spans & R & Pl & Sp & Eb & Ty)]; [left; auto|right].
    exists i, j, cs. eexists. split; [exact R|]. split; [exact Pl|]. destruct g; try discriminate; (split; [exact I|]); exists spans; splits; auto.
Qed.
Lemma after_run g o bs cs ops j got E0 m' : seg_op ci g o bs -> after g bs cs (mkMach [] got E0) m' -> j <= e -> converts got ->
  match_parts E ci fuel b line (bs ++ ops) j e m' = Val (inl j) /\ (forall gs r, taken g gs j cs E0 r <-> r = inl j) \/
  ((forall r, match_parts E ci fuel b line (bs ++ ops) j e m' <> Val r) /\ forall gs r, ~ taken g gs j cs E0 r) \/
  exists got' E1, converts got' /\ match_parts E ci fuel b line (bs ++ ops) j e m' = match_parts E ci fuel b line ops j e (mkMach [] got' E1) /\
    (forall gs r, taken g gs j cs E0 r <-> follow gs j E1 r).
Proof.
  intros So Af Lj G. destruct (is_given g) eqn:Gv.
  - destruct So as [|? ? ? ? ? ? ? ?|? ? ? ?|f v x Cf Id]; try discriminate. destruct Af as (rg & z & -> & Pz & ->). cbn [app match_parts Smart_Model.x_stack Smart_Model.x_env x_got].
    destruct (Nat.leb_spec e j) as [L|L].
    { left. split; [reflexivity|]. intros gs r. split; [|intros ->; apply ta_limit; [discriminate|exact L]]. intros T. inversion T; subst; try discriminate; try lia. reflexivity. }
    destruct (evaluate fuel line E0 None x) as [[k|t]| |] eqn:Ev; cbn [bind as_numeric].
    + right. right. eexists _, _. split; [|split; [reflexivity|]].
      * apply Forall_app. split; [exact G|]. constructor; [|constructor]. cbn [fst snd k_ty convert]. fold (format_of f). rewrite Pz. eauto.
      * intros gs r. split.
        -- intros T. inversion T as [|? ? ? ? ? c ? z' ? Lk Ct Pz' Fo|? ? ? ? ? ? ? y t Lk N Tx|? ? ? ? ? Nc Lk]; subst; [discriminate| | |lia].
           ++ cbn [snd] in Pz'. assert (z' = z) as -> by congruence. exact Fo.
           ++ rewrite (texted_text _ _ _ _ _ _ N Tx) in Ev. discriminate.
        -- intros Fo. apply ta_given with z; auto. now apply evaluated_counts with k.
    + left. split; [reflexivity|]. intros gs r. split.
      * intros T. inversion T as [|? ? ? ? ? c ? z' ? Lk Ct Pz' Fo|? ? ? ? ? ? ? y t' Lk N Tx|? ? ? ? ? Nc Lk]; subst; [discriminate| |reflexivity|reflexivity].
        apply counts_evaluated in Ct as (k & Ek). congruence.
      * intros ->. apply text_texted in Ev as (w & y & -> & N & Tx). now apply ta_text with y t.
    + right. left. split; [discriminate|]. intros gs r T. inversion T as [|? ? ? ? ? c ? z' ? Lk Ct Pz' Fo|? ? ? ? ? ? ? y t' Lk N Tx|? ? ? ? ? Nc Lk]; subst; [discriminate| | |lia].
      * apply counts_evaluated in Ct as (k & Ek). congruence.
      * rewrite (texted_text _ _ _ _ _ _ N Tx) in Ev. discriminate.
    + right. left. split; [discriminate|]. intros gs r T. inversion T as [|? ? ? ? ? c ? z' ? Lk Ct Pz' Fo|? ? ? ? ? ? ? y t' Lk N Tx|? ? ? ? ? Nc Lk]; subst; [discriminate| | |lia].
      * apply counts_evaluated in Ct as (k & Ek). congruence.
      * rewrite (texted_text _ _ _ _ _ _ N Tx) in Ev. discriminate.
  - assert (exists spans, m' = pushed (mkMach [] got E0) spans /\ spans_of spans cs /\ bs = binds_of (map fst cs) /\ Forall capt_ok cs) as (spans & -> & Sp & -> & Ty) by (destruct g; try discriminate; exact Af). clear Af.
    assert (Inv : forall gs r, taken g gs j cs E0 r -> (cs <> [] /\ e <= j /\ r = inl j) \/ exists vs, all_kept cs vs /\ Forall accepted cs /\ (cs <> [] -> j < e) /\ follow gs j (defined E0 (rev vs)) r).
    { intros gs r T. inversion T; subst; try discriminate; [right; eexists; eauto|left; auto]. }
    destruct (taken_run cs spans _ ops j (mkMach [] got E0) Sp eq_refl Ty Lj eq_refl G) as [(R & Nc & Lk)|(Nc & R)].
    + left. split; [exact R|]. intros gs r. split; [|intros ->; now apply ta_limit]. intros T. apply Inv in T as [(_ & _ & T)|(vs & _ & _ & Lj' & _)]; [exact T|]. specialize (Lj' Nc). lia.
    + destruct (note_all cs) as [vs|] eqn:Nt.
      * destruct R as (got' & G' & R). right. right. exists got', (defined E0 (rev vs)). split; [exact G'|]. split; [exact R|]. intros gs r. split.
        -- intros T. apply Inv in T as [(T1 & T2 & _)|(vs' & Kv & Ac & _ & Fo)]; [specialize (Nc T1); lia|]. pose proof (proj2 (notes_kept _ _ Ty) (conj Kv Ac)) as X. rewrite Nt in X. injection X as <-. exact Fo.
        -- intros Fo. apply (notes_kept _ _ Ty) in Nt as [Kv Ac]. now apply ta_go with vs.
      * right. left. split; [rewrite R; discriminate|]. intros gs r T. apply Inv in T as [(T1 & T2 & _)|(vs' & Kv & Ac & _ & Fo)]; [specialize (Nc T1); lia|]. pose proof (proj2 (notes_kept _ _ Ty) (conj Kv Ac)) as X. congruence.
Qed.
Lemma seg_step g o bs ops q m : seg_op ci g o bs -> match_parts E ci fuel b line (o :: bs ++ ops) q e m = if e <=? q then Val (inl q) else
  do h <- match_part E ci fuel b line o (mkRange q e) true m; match h with Some (s, m') => match_parts E ci fuel b line (bs ++ ops) (rend s) e m' | None => Val (inl q) end.
Proof. intros So. destruct So; reflexivity. Qed.
Lemma parts_sound gs ops : cut_ops ci gs ops -> forall q got E0 r, q <= e -> converts got -> match_parts E ci fuel b line ops q e (mkMach [] got E0) = Val r ->
  match r with inl k => follow gs q E0 (inl k) /\ k <= e | inr (j, m) => exists got' E', m = mkMach [] got' E' /\ converts got' /\ follow gs q E0 (inr (j, E')) end.
Proof.
  induction 1 as [|g o bs gs ops So F IH]; intros q got E0 r Lq G H.
  - cbn in H. injection H as <-. exists got, E0. splits; auto. constructor.
  - rewrite (seg_step _ _ _ _ _ _ So) in H. destruct (Nat.leb_spec e q) as [Le|Lt]; [injection H as <-; split; [now apply fo_limit|exact Lq]|].
    destruct (match_part E ci fuel b line o (mkRange q e) true (mkMach [] got E0)) as [h| |] eqn:Mp; try discriminate. cbn [bind] in H.
    destruct (part_stands g o bs true q _ h So Mp) as (p & Sf). cbn [Smart_Model.x_env] in Sf.
    destruct (piece_place g o bs p true q (mkMach [] got E0) So Sf) as [[R [N|(i & k & cs & (A1 & A2 & A3 & A4 & _) & Nr)]]|(i & j & cs & m' & R & (A1 & A2 & A3 & A4 & _) & Rd & Af)]; [lia| | |]; rewrite Mp in R; injection R as ->.
    + injection H as <-. split; [|lia]. apply fo_stop with p; auto.
    + injection H as <-. split; [|lia]. rewrite (A2 eq_refl) in *. now apply fo_large with k cs p.
    + rewrite (A2 eq_refl) in *. cbn [rend] in H. destruct (after_run g o bs cs ops j got E0 m' So Af A4 G) as [(R & T)|[(R & _)|(got' & E1 & G' & R & T)]].
      * rewrite R in H. injection H as <-. split; [|exact A4]. apply fo_next with j cs p; auto. now apply T.
      * now elim (R r).
      * rewrite R in H. apply IH in H; auto. destruct r as [k|[k m]].
        -- destruct H as [H Lk]. split; [|exact Lk]. apply fo_next with j cs p; auto. now apply T.
        -- destruct H as (got2 & E' & -> & G2 & Fo). exists got2, E'. splits; auto. apply fo_next with j cs p; auto. now apply T.
Qed.
Lemma parts_complete gs ops : cut_ops ci gs ops -> forall q got E0 r, q <= e -> converts got -> follow gs q E0 r ->
  match r with inl k => match_parts E ci fuel b line ops q e (mkMach [] got E0) = Val (inl k) | inr (j, E') => exists got', converts got' /\ match_parts E ci fuel b line ops q e (mkMach [] got E0) = Val (inr (j, mkMach [] got' E')) end.
Proof.
  induction 1 as [|g o bs gs ops So F IH]; intros q got E0 r Lq G H.
  - inversion H; subst. exists got. auto.
  - rewrite (seg_step _ _ _ _ _ _ So). inversion H as [|? ? ? k cs ? p ? Lt Sf Pf Rd Tk|? ? ? ? Le|? ? ? ? p Lt Sf N|? ? ? k cs ? p Lt Sf Pf Nr]; subst.
    + destruct (Nat.leb_spec e q) as [Le|_]; [lia|].
      destruct (piece_place g o bs p true q (mkMach [] got E0) So Sf) as [[R [N|(i & k' & cs' & (A1 & A2 & A3 & A4 & _) & Nr)]]|(i & j & cs' & m' & R & (A1 & A2 & A3 & A4 & _) & Rd' & Af)]; [lia| | |].
      * elim (N q k cs); [lia|reflexivity|now apply (preferred_pieces (cased ci g) b e)].
      * rewrite (A2 eq_refl) in *. destruct (piece_one g o bs E0 p q _ _ _ _ So Sf Lq Pf A3) as [<- <-]. contradiction.
      * rewrite (A2 eq_refl) in *. destruct (piece_one g o bs E0 p q _ _ _ _ So Sf Lq Pf A3) as [<- <-]. rewrite R. cbn [bind rend].
        destruct (after_run g o bs cs ops k got E0 m' So Af A4 G) as [(R' & T)|[(_ & T)|(got' & E1 & G' & R' & T)]].
        -- apply T in Tk as ->. exact R'.
        -- now elim (T gs r).
        -- rewrite R'. apply T in Tk. exact (IH k got' _ r A4 G' Tk).
    + destruct (Nat.leb_spec e q) as [_|?]; [reflexivity|lia].
    + destruct (Nat.leb_spec e q) as [Le|_]; [lia|].
      destruct (piece_place g o bs p true q (mkMach [] got E0) So Sf) as [[R _]|(i & j & cs' & m' & R & (A1 & A2 & A3 & A4 & _) & Rd' & Af)]; [lia|now rewrite R|].
      rewrite (A2 eq_refl) in *. elim (N j cs'). now apply (preferred_pieces (cased ci g) b e).
    + destruct (Nat.leb_spec e q) as [Le|_]; [lia|].
      destruct (piece_place g o bs p true q (mkMach [] got E0) So Sf) as [[R _]|(i & j & cs' & m' & R & (A1 & A2 & A3 & A4 & _) & Rd' & Af)]; [lia|now rewrite R|].
      rewrite (A2 eq_refl) in *. destruct (piece_one g o bs E0 p q _ _ _ _ So Sf Lq Pf A3) as [<- <-]. contradiction.
Qed.
Definition answers (r : option (range * mach)) (w : option (nat * nat * @bindings value)) : Prop :=
  match r, w with None, None => True | Some (s, m), Some (i, j, E') => s = mkRange i j /\ exists got, converts got /\ m = mkMach [] got E' | _, _ => False end.
(** the search is the scan *)
Lemma found_sound g o bs gs ops cs j E0 m' r : seg_op ci g o bs -> cut_ops ci gs ops -> after g bs cs (mkMach [] [] E0) m' -> j <= e ->
  match_parts E ci fuel b line (bs ++ ops) j e m' = Val r ->
  match r with inl k => taken g gs j cs E0 (inl k) /\ k <= e | inr (k, m) => exists got' E', m = mkMach [] got' E' /\ converts got' /\ taken g gs j cs E0 (inr (k, E')) end.
Proof.
  intros So Cu Af Lj H. destruct (after_run g o bs cs ops j [] E0 m' So Af Lj (Forall_nil _)) as [(R & T)|[(R & _)|(got' & E1 & G' & R & T)]].
  - rewrite R in H. injection H as <-. split; [now apply T|exact Lj].
  - now elim (R r).
  - rewrite R in H. apply (parts_sound gs ops Cu) in H; auto. destruct r as [k|[k m]]; [destruct H as [H Lk]; split; [now apply T|exact Lk]|].
    destruct H as (got2 & E' & -> & G2 & Fo). exists got2, E'. splits; auto. now apply T.
Qed.
Lemma found_complete g o bs gs ops cs j E0 m' r : seg_op ci g o bs -> cut_ops ci gs ops -> after g bs cs (mkMach [] [] E0) m' -> j <= e -> taken g gs j cs E0 r ->
  match r with inl k => match_parts E ci fuel b line (bs ++ ops) j e m' = Val (inl k)
  | inr (k, E') => exists got', converts got' /\ match_parts E ci fuel b line (bs ++ ops) j e m' = Val (inr (k, mkMach [] got' E')) end.
Proof.
  intros So Cu Af Lj Tk. destruct (after_run g o bs cs ops j [] E0 m' So Af Lj (Forall_nil _)) as [(R & T)|[(_ & T)|(got' & E1 & G' & R & T)]].
  - apply T in Tk as ->. exact R.
  - now elim (T gs r).
  - rewrite R. apply T in Tk. exact (parts_complete gs ops Cu j got' _ r Lj G' Tk).
Qed.
Lemma given_nonempty g o bs E0 p i k cs : seg_op ci g o bs -> stands E0 g p -> is_given g = true -> preferred (cased ci g) b e p i k cs -> i < k.
Proof.
  intros So Sf Gv P. apply preferred_pieces in P. destruct So; try discriminate. inversion Sf; subst. now apply define_piece in P.
Qed.
Lemma rounds_scan g o bs gs ops E0 : seg_op ci g o bs -> cut_ops ci gs ops ->
  forall n s r, (is_given g = true -> s <= e) -> search_rounds E ci fuel b line n o (bs ++ ops) s e false E0 = Some (Val r) -> exists w, scan (g :: gs) s E0 w /\ answers r w.
Proof.
  intros So Cu. induction n as [|n IH]; intros s r Ls H; [discriminate|]. cbn [search_rounds] in H.
  destruct (match_part E ci fuel b line o (mkRange s e) false (mkMach [] [] E0)) as [h| |] eqn:Mp; try discriminate.
  destruct (part_stands g o bs false s _ h So Mp) as (p & Sf). cbn [Smart_Model.x_env] in Sf.
  destruct (piece_place g o bs p false s (mkMach [] [] E0) So Sf Ls) as [[R [N|(i & k & cs & (A1 & A2 & A3 & A4 & A5) & Nr)]]|(i & k & cs & m' & R & (A1 & A2 & A3 & A4 & A5) & Rd & Af)]; rewrite Mp in R; injection R as ->.
  - injection H as <-. exists None. split; [|exact I]. apply sc_none with p; auto. intros i j cs Li. apply N; [exact Li|discriminate].
  - injection H as <-. exists None. split; [|exact I]. apply sc_large with p i k cs; auto. unfold first_pieces. splits; try lia; [now apply preferred_pieces|]. now apply A5.
  - cbn [rend rstart] in H. assert (Fp : first_pieces (cased ci g) b p s e i k cs).
    { unfold first_pieces. splits; try lia; [now apply preferred_pieces|]. now apply A5. }
    destruct (match_parts E ci fuel b line (bs ++ ops) k e m') as [r'| |] eqn:Mr; try discriminate.
    apply (found_sound g o bs gs ops cs k E0 m' r' So Cu Af A4) in Mr. destruct r' as [q|[j m]].
    + destruct Mr as [Mr Lq]. apply IH in H as (w & Sc & An). { exists w. split; [|exact An]. now apply sc_again with p i k cs q. }
      intros Gv. pose proof (given_nonempty _ _ _ _ _ _ _ _ So Sf Gv A3). lia.
    + destruct Mr as (got & E' & -> & G & Tk). injection H as <-. exists (Some (i, j, E')). split; [now apply sc_found with p k cs|]. cbn. split; [reflexivity|eauto].
Qed.
Lemma scan_rounds g o bs gs ops : seg_op ci g o bs -> cut_ops ci gs ops ->
  forall s E0 w, (is_given g = true -> s <= e) -> scan (g :: gs) s E0 w -> exists n r, search_rounds E ci fuel b line n o (bs ++ ops) s e false E0 = Some (Val r) /\ answers r w.
Proof.
  intros So Cu s E0 w Ls H. remember (g :: gs) as l eqn:El.
  assert (First : forall s E0 p i k cs, (is_given g = true -> s <= e) -> stands E0 g p -> first_pieces (cased ci g) b p s e i k cs -> preferred (cased ci g) b e p i k cs ->
    match_part E ci fuel b line o (mkRange s e) false (mkMach [] [] E0) = Val None /\ ~ readable g cs \/
    exists m', match_part E ci fuel b line o (mkRange s e) false (mkMach [] [] E0) = Val (Some (mkRange i k, m')) /\ readable g cs /\ after g bs cs (mkMach [] [] E0) m' /\ k <= e).
  { clear w s H Ls E0. intros s E0 p i k cs Ls Sf (B1 & B2 & B3 & B4) Pf.
    assert (At : forall i' k' cs', Scan_Proofs.place (cased ci g) b e p false s i' k' cs' -> i' = i /\ k' = k /\ cs' = cs).
    { intros i' k' cs' (A1 & A2 & A3 & A4 & A5).
      assert (i' = i) as -> by (destruct (Nat.lt_trichotomy i' i) as [L|[L|L]]; [elim (B4 i' k' cs'); [lia|now apply preferred_pieces]|exact L|elim (A5 eq_refl i k cs); [lia|exact B3]]).
      destruct (piece_one g o bs E0 p i _ _ _ _ So Sf (proj2 A1) A3 Pf) as [-> ->]. auto. }
    destruct (piece_place g o bs p false s (mkMach [] [] E0) So Sf Ls) as [[R [N|(i' & k' & cs' & Pl & Nr)]]|(i' & k' & cs' & m' & R & Pl & Rd & Af)].
    - elim (N i k cs); [lia|discriminate|exact B3].
    - left. apply At in Pl as (-> & -> & ->). auto.
    - right. pose proof (proj1 (proj2 (proj2 (proj2 Pl)))) as Lk. apply At in Pl as (-> & -> & ->). exists m'. splits; auto. }
  induction H as [g0 gs0 s E0 p Sf N|g0 gs0 s E0 p i k cs Sf Fp Pf Nr|g0 gs0 s E0 p i k cs j E' Sf Fp Pf Rd Tk|g0 gs0 s E0 p i k cs q r Sf Fp Pf Rd Tk Sc IH]; injection El as -> ->.
  - exists 1, None. split; [|exact I]. cbn [search_rounds]. destruct (piece_place g o bs p false s (mkMach [] [] E0) So Sf Ls) as [[R _]|(i & k & cs & m' & R & (A1 & A2 & A3 & A4 & A5) & _)]; [now rewrite R|]. elim (N i k cs); [exact A1|now apply preferred_pieces].
  - exists 1, None. split; [|exact I]. cbn [search_rounds]. destruct (First s E0 p i k cs Ls Sf Fp Pf) as [[R _]|(m' & _ & Rd & _)]; [now rewrite R|contradiction].
  - destruct (First s E0 p i k cs Ls Sf Fp Pf) as [[_ Nr]|(m' & R & _ & Af & Lk)]; [contradiction|]. destruct (found_complete g o bs gs ops cs k E0 m' _ So Cu Af Lk Tk) as (got & G & R').
    exists 1, (Some (mkRange i j, mkMach [] got E')). split; [|cbn; split; [reflexivity|eauto]]. cbn [search_rounds]. rewrite R. cbn [rend rstart]. now rewrite R'.
  - destruct (First s E0 p i k cs Ls Sf Fp Pf) as [[_ Nr]|(m' & R & _ & Af & Lk)]; [contradiction|].
    pose proof (found_complete g o bs gs ops cs k E0 m' _ So Cu Af Lk Tk) as R'. cbn beta iota in R'. pose proof (found_sound g o bs gs ops cs k E0 m' _ So Cu Af Lk R') as [_ Lq].
    destruct (IH ltac:(intros Gv; pose proof (given_nonempty _ _ _ _ _ _ _ _ So Sf Gv Pf); destruct Fp; lia) eq_refl) as (n & r' & Rn & An). exists (S n), r'. split; [|exact An]. cbn [search_rounds]. rewrite R. cbn [rend rstart]. rewrite R'. exact Rn.
Qed.
Lemma answers_result at_ E0 r w : answers r w -> smart_result b at_ E0 r = scanned at_ E0 w.
Proof.
  destruct r as [[s m]|], w as [[[i j] E']|]; cbn [answers]; try easy. intros (-> & got & G & ->). unfold smart_result. cbn [x_got Smart_Model.x_env].
  assert (X : forallb (fun c : range * capt => match convert (text_of b (fst c)) (k_ty (snd c)) with Some _ => true | None => false end) got = true); [|now rewrite X].
  apply forallb_forall. intros rc I. unfold converts in G. rewrite Forall_forall in G. destruct (G rc I) as (v & V). now rewrite V.
Qed.
End Search2.
