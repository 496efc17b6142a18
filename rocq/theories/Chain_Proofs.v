(** The search for a pattern with substitutions: what it finds is a chain of pieces. *)
From Coq Require Import String.
From Verif Require Import Base Text_Model Cursor_Model Check_Model Lit_Model Lit_Spec Env_Model Num_Model Num_Spec Num_Proofs Gram_Model Sum_Spec Parse_Model
  Regex_Model Regex_Spec Regex_Proofs Regex_Engine Regex_Frame Smart_Model Smart_Spec Smart_Static Smart_Parts Chain_Spec.
From Verif Require Lit_Proofs.
Open Scope list_scope.
Open Scope nat_scope.
Ltac splits := repeat match goal with |- _ /\ _ => split end.

(** * The same variables *)
Lemma same_refl E : same_vars E E.
Proof. unfold same_vars. auto. Qed.
Lemma same_sym E F : same_vars E F -> same_vars F E.
Proof. intros (A & B & C). unfold same_vars. splits; intros; symmetry; auto. Qed.
Lemma same_trans E F G : same_vars E F -> same_vars F G -> same_vars E G.
Proof. intros (A & B & C) (A2 & B2 & C2). unfold same_vars. splits; intros; congruence. Qed.
Lemma same_insert E F v w : same_vars E F -> same_vars (b_insert E v w) (b_insert F v w).
Proof.
  intros (A & B & C). destruct v as [x|x|x]; unfold same_vars; cbn [b_insert b_system b_global b_bound]; splits; auto; intros k; unfold v_insert, s_insert;
    match goal with |- context [if ?c then _ else _] => destruct c end; auto.
Qed.
Lemma same_defined vs : forall E F, same_vars E F -> same_vars (defined E vs) (defined F vs).
Proof. unfold defined. induction vs as [|v vs IH]; intros E F H; cbn [fold_left]; [exact H|]. apply IH. now apply same_insert. Qed.
Lemma same_look E F x : same_vars E F -> look_up E x = look_up F x.
Proof.
  intros (A & B & C). unfold look_up. destruct x as [|c r]; unfold b_get_local, b_get_global; [now rewrite C, A|].
  destruct (N.eqb c 36); [now rewrite B, A|]. destruct (N.eqb c 64); [easy|]. now rewrite C, A.
Qed.
Lemma insert_swap E v w v' w' : v <> v' -> same_vars (b_insert (b_insert E v w) v' w') (b_insert (b_insert E v' w') v w).
Proof.
  intros N.
  assert (S1 : forall (m : @smap value) x y a c, x <> y -> forall k, s_insert (s_insert m x a) y c k = s_insert (s_insert m y c) x a k).
  { intros m x y a c D k. unfold s_insert. destruct (str_eqb y k) eqn:E1, (str_eqb x k) eqn:E2; auto. apply str_eqb_eq in E1, E2. congruence. }
  assert (V1 : forall a k, vname_eqb a k = true -> a = k).
  { intros [] [] H; cbn in H; try discriminate; apply str_eqb_eq in H; congruence. }
  assert (S2 : forall (m : @vmap value) x y a c, x <> y -> forall k, v_insert (v_insert m x a) y c k = v_insert (v_insert m y c) x a k).
  { intros m x y a c D k. unfold v_insert. destruct (vname_eqb y k) eqn:E1, (vname_eqb x k) eqn:E2; auto. apply V1 in E1, E2. congruence. }
  destruct v as [x|x|x], v' as [y|y|y]; unfold same_vars; cbn [b_insert b_system b_global b_bound]; splits; auto; intros k; try (apply S1); try (apply S2); congruence.
Qed.
Lemma defined_app E vs ws : defined E (vs ++ ws) = defined (defined E vs) ws.
Proof. unfold defined. apply fold_left_app. Qed.
Lemma defined_late vs : forall E v w, ~ In v (map fst vs) -> same_vars (defined (b_insert E v w) vs) (b_insert (defined E vs) v w).
Proof.
  induction vs as [|[v' w'] vs IH]; intros E v w N; [apply same_refl|]. cbn [map fst] in N. unfold defined in *. cbn [fold_left fst snd].
  eapply same_trans; [|apply IH; intros H; apply N; now right]. apply (same_defined vs). apply insert_swap. intros ->. apply N. now left.
Qed.
Lemma defined_rev vs : forall E, NoDup (map fst vs) -> same_vars (defined E (rev vs)) (defined E vs).
Proof.
  induction vs as [|[v w] vs IH]; intros E D; [apply same_refl|]. cbn [map fst] in D. inversion D as [|? ? N D2]; subst.
  cbn [rev]. rewrite defined_app. change (same_vars (b_insert (defined E (rev vs)) v w) (defined (b_insert E v w) vs)).
  eapply same_trans; [apply same_insert, IH, D2|]. apply same_sym. now apply defined_late.
Qed.

(** * Evaluation *)
Lemma means_ext env env' (H : forall x, env x = env' x) e z : expr_means env e z -> expr_means env' e z.
Proof. induction 1; try (now constructor); [econstructor; [rewrite <- H|]; eauto|econstructor; eauto]. Qed.
Lemma bound_ext env env' line (H : forall x, env x = env' x) v z : bound env line v z -> bound env' line v z.
Proof.
  destruct v as [x|x|x]; cbn; [auto|..]; intros (d & A & B); exists d; (split; [now rewrite <- H|]); eapply means_ext; eauto.
Qed.
Lemma tree_ext (val val' : vname -> Z -> Prop) (H : forall v z, val v z -> val' v z) x z : tree_value val x z -> tree_value val' x z.
Proof. induction 1; [constructor|constructor; auto|econstructor; eauto]. Qed.
Lemma format_ext env env' (H : forall x, env x = env' x) d g : expr_format env d g -> expr_format env' d g.
Proof. induction 1; try (now constructor); [econstructor; [rewrite <- H|]; eauto|econstructor; eauto]. Qed.
Lemma text_ext env env' (H : forall x, env x = env' x) x s : text_means env x s -> text_means env' x s.
Proof. induction 1; [apply tm_here; now rewrite <- H|eapply tm_there; [rewrite <- H; eauto|easy]]. Qed.
Lemma linked_same ci b e line l E i j F : linked ci b e line l E i j F -> forall E', same_vars E E' -> exists F', linked ci b e line l E' i j F' /\ same_vars F F'.
Proof.
  induction 1 as [E i|q l E i k j cs vs F P K L IH|q f x z g l E i j F S0 T G G2 Le At L IH|q f v n s x l E i k j F S0 N T B0 Lg L IH|f v x z l E i k j F t A B0 I0 Fa P L IH]; intros E' S.
  - exists E'. split; [constructor|exact S].
  - destruct (IH (defined E' vs)) as (F' & L' & S'); [now apply same_defined|]. exists F'. split; [|exact S']. eapply lk_piece; eauto.
  - destruct (IH E' S) as (F' & L' & S'). exists F'. split; [|exact S']. eapply lk_number; eauto.
    + eapply tree_ext; [|exact T]. intros w y. apply bound_ext. intros a. now apply same_look.
    + intros X. destruct (G2 X) as (d & Hd & Fd). exists d. split; [easy|]. eapply format_ext; [|exact Fd]. intros a. now apply same_look.
  - destruct (IH E' S) as (F' & L' & S'). exists F'. split; [|exact S']. eapply lk_text; eauto. eapply text_ext; [|exact T]. intros a. now apply same_look.
  - destruct (IH _ (same_insert _ _ v (VNum (ENum (mkNum (Some (format_of f)) z))) S)) as (F' & L' & S'). exists F'. split; [|exact S']. eapply lk_define; eauto.
Qed.
Lemma linked_app ci b e line l1 E i k F : linked ci b e line l1 E i k F -> forall l2 j G, linked ci b e line l2 F k j G -> linked ci b e line (l1 ++ l2) E i j G.
Proof.
  induction 1; intros l2 j' G L2; cbn [app]; [exact L2|eapply lk_piece; eauto|eapply lk_number; eauto|eapply lk_text; eauto|eapply lk_define; eauto].
Qed.
Lemma pieces_linked ci b e line l i j cs : pieces ci b e l i j cs -> forall E vs, all_kept cs vs -> linked ci b e line l E i j (defined E vs).
Proof.
  induction 1 as [i|q l i k j cs ds P Ps IH]; intros E vs K.
  - inversion K; subst. constructor.
  - apply Forall2_app_inv_l in K as (v1 & v2 & K1 & K2 & ->). rewrite defined_app. eapply lk_piece; eauto.
Qed.
Lemma eval_tree fuel E line ex x n : evaluate_expr fuel (look_up E) ex (eval_of line x) = RNum n -> tree_value (bound (look_up E) line) x (nvalue n).
Proof.
  intros H. apply evaluate_means in H. revert H. generalize (nvalue n). clear. induction x as [m|v|op a IHa c IHc]; intros z H; cbn [eval_of] in H.
  - inversion H; subst. constructor.
  - constructor. destruct v as [x|x|x]; cbn [bound].
    + destruct (str_eqb x (of_string "LINE")) eqn:X; [apply str_eqb_eq in X; inversion H; subst; auto|]. inversion H as [| |? d ? L M|]; subst. discriminate L.
    + inversion H; subst. eauto.
    + inversion H; subst. eauto.
  - inversion H; subst. econstructor; eauto.
Qed.
Lemma infer_merged l r f : infer_format l r = Some f -> merged l r (match l, r with None, None => None | _, _ => Some f end).
Proof.
  assert (A : forall p q, prec_compatible p q = true -> agree p q). { intros p q H. unfold prec_compatible in H. unfold agree. repeat apply orb_prop in H as [H|H]; apply Nat.eqb_eq in H; auto. }
  assert (K : forall c d, casing_eqb c d = true -> c = d) by (now intros [] []).
  destruct l as [[p|p|p x c]|], r as [[q|q|q y d]|]; cbn; try discriminate; intros H; try (injection H as <-; constructor);
    match type of H with (if ?b then _ else _) = _ => destruct b eqn:B; [|discriminate] end; injection H as <-; try (constructor; auto).
  apply andb_prop in B as [B B3]. apply andb_prop in B as [B1 B2]. apply eqb_prop in B1 as ->. constructor; auto. apply orb_prop in B3 as [B3|B3]; [|auto]. apply orb_prop in B3 as [B3|B3]; auto.
Qed.
Lemma eval_format fuel : forall env d n, evaluate_expr fuel env None d = RNum n -> expr_format env d (nformat n).
Proof.
  induction fuel as [|k IH]; intros env d n; [discriminate|]. cbn [evaluate_expr]. destruct d as [m|x|l|op a c].
  - intros [= <-]. constructor.
  - destruct (env x) as [[|t|d']|] eqn:V; try discriminate. intros H. apply IH in H. econstructor; eauto.
  - intros [= <-]. constructor.
  - destruct (evaluate_expr k env None a) as [u| | | | | |] eqn:A; try discriminate; destruct (evaluate_expr k env None c) as [w| | | | | |] eqn:C; try discriminate.
    apply IH in A, C. destruct (infer_format (nformat u) (nformat w)) as [f|] eqn:F; [|discriminate]. destruct (apply_op _ _ _); [|discriminate]. intros [= <-]. apply infer_merged in F. econstructor; eauto.
Qed.
Lemma eval_names fuel line E ex : forall x k n, k <= fuel -> evaluate_expr k (look_up E) ex (eval_of line x) = RNum n -> nexpr_of line x = Some (eval_of line x).
Proof.
  induction x as [m|v|op a IHa c IHc]; intros k n L H; cbn [eval_of nexpr_of] in *; [reflexivity|..].
  - destruct v as [x|x|x]; try reflexivity. destruct (str_eqb x (of_string "LINE")); [reflexivity|]. exfalso. destruct k; discriminate H.
  - destruct k as [|k]; [discriminate|]. cbn [evaluate_expr] in H. destruct (evaluate_expr k _ ex (eval_of line a)) as [u| | | | | |] eqn:A; try discriminate; destruct (evaluate_expr k _ ex (eval_of line c)) as [w| | | | | |] eqn:C; try discriminate.
    rewrite (IHa k u) by (auto; lia). rewrite (IHc k w) by (auto; lia). reflexivity.
Qed.
Lemma eval_shown fuel E line x n : evaluate_expr fuel (look_up E) None (eval_of line x) = RNum n -> number_format (look_up E) line x (nformat n).
Proof. intros H. exists (eval_of line x). split; [eapply eval_names; eauto|]. eapply eval_format; eauto. Qed.
Lemma eval_text fuel : forall env ex d s, evaluate_expr fuel env ex d = RStr s -> exists x, d = EVar x /\ text_means env x s.
Proof.
  induction fuel as [|k IH]; intros env ex d s; [discriminate|]. cbn [evaluate_expr]. destruct d as [m|x|l|op a c]; try discriminate.
  - destruct (env x) as [[|t|d']|] eqn:V; try discriminate; [intros [= <-]; exists x; split; [easy|now apply tm_here]|].
    intros H. apply IH in H as (y & -> & T). exists x. split; [easy|]. eapply tm_there; eauto.
  - destruct (evaluate_expr k env ex a); try discriminate; destruct (evaluate_expr k env ex c); try discriminate.
    destruct (match infer_format _ _ with Some f => Some f | None => ex end); [|discriminate]. destruct (apply_op _ _ _); discriminate.
Qed.
Lemma eval_var line x y : eval_of line x = EVar y -> exists v, x = PVar v /\ (env_name v y \/ exists r, y = 64%N :: r).
Proof.
  destruct x as [m|v|op a c]; try discriminate. intros H. exists v. split; [easy|]. destruct v as [x|x|x]; cbn [eval_of] in H.
  - destruct (str_eqb _ _); [discriminate|]. injection H as <-. right. now exists x.
  - injection H as <-. left. constructor.
  - injection H as <-. left. constructor.
Qed.

(** * Texts that stand for themselves *)
Definition ordinary (c : N) : bool := negb (existsb (N.eqb c) special).
Lemma ordinary_lex_one c r : ordinary c = true -> lex_one c r = Some (KSet (chr c), r).
Proof.
  unfold ordinary. rewrite negb_true_iff. intros M. unfold special in M. cbn [of_string existsb] in M. repeat (apply orb_false_iff in M as [? M]). clear M.
  unfold lex_one. repeat match goal with H : N.eqb c _ = false |- _ => cbn in H; rewrite H; clear H end. reflexivity.
Qed.
Lemma ordinary_lex s : forallb ordinary s = true -> lex_all s = Some (map (fun c => KSet (chr c)) s).
Proof.
  unfold lex_all. induction s as [|c s IH]; [reflexivity|]. cbn [forallb length lex map]. intros H. apply andb_prop in H as [H1 H2]. rewrite ordinary_lex_one by easy. now rewrite IH.
Qed.
Lemma chars_steps t : forall cur, steps (map (fun c => KSet (chr c)) t) (0, [mkFrame None [] cur]) = Some (0, [mkFrame None [] (rev (map (fun c => RSet (chr c)) t) ++ cur)]).
Proof. induction t as [|c t IH]; intros cur; [reflexivity|]. cbn [map steps step]. unfold push. cbn [f_group f_alts f_cur]. rewrite IH. cbn [rev map]. now rewrite <- app_assoc. Qed.
Lemma chars_names t : open_names (map (fun c => KSet (chr c)) t) = [].
Proof. induction t; cbn; auto. Qed.
Lemma ordinary_build ci s : forallb ordinary s = true -> build ci s = Some (mkRx ci (cat (map (fun c => RSet (chr c)) s)) [None]).
Proof.
  intros H. unfold build. rewrite (ordinary_lex s H). unfold parse_tokens. rewrite chars_steps, chars_names, app_nil_r. cbn [some_names flat_map distinct option_map].
  unfold alt. cbn [f_alts f_cur fold_left]. now rewrite rev_involutive.
Qed.
Lemma display_ordinary n : forallb ordinary (display n) = true.
Proof.
  assert (G : forall f v, forallb ordinary (display (mkNum (Some f) v)) = true).
  { intros f v. destruct (display_digits f v) as (zs & ds & -> & _ & _ & _ & _ & D). rewrite !forallb_app. apply andb_true_intro. split; [|apply andb_true_intro; split].
    - destruct f as [p|p|p [] k]; cbn [lead]; try reflexivity. now destruct (v <? 0)%Z.
    - clear. induction zs; [reflexivity|]. cbn. exact IHzs.
    - apply forallb_forall. intros c Hc. rewrite Forall_forall in D. specialize (D c Hc).
      assert (R : (48 <= c <= 57 \/ 97 <= c <= 102 \/ 65 <= c <= 70)%N) by (destruct f as [p|p|p pr []]; cbn in D; unfold hex_char, decimal_char in D; lia).
      clear -R. unfold ordinary, special. cbn [of_string existsb]. repeat match goal with |- context [N.eqb c ?x] => let E := fresh in destruct (N.eqb_spec c x) as [E|E]; [cbn in E; lia|] end. reflexivity. }
  destruct n as [[f|] v]; [apply G|]. change (display (mkNum None v)) with (display (mkNum (Some default_format) v)). apply G.
Qed.

(** * Captured numbers *)
Lemma acc_zeros r t z : (r = 10 \/ r = 16)%Z -> Num_Model.accumulate r false 0 t = inl z ->
  match drop_zeros t with [] => z = 0%Z | d => Num_Model.accumulate r false 0 d = inl z end.
Proof.
  intros R. induction t as [|c t IH]; cbn [drop_zeros Num_Model.accumulate]; [now intros [= <-]|].
  destruct (N.eqb_spec c 48) as [->|D]; [|auto].
  intros H. apply IH. revert H. destruct R as [-> | ->]; cbn; auto.
Qed.
Lemma drop_head t : match drop_zeros t with c :: _ => N.eqb c 48 = false | [] => True end.
Proof. induction t as [|c t IH]; cbn; auto. destruct (N.eqb c 48) eqn:E; auto. Qed.
Lemma sign_digit r c : (r = 10 \/ r = 16)%Z -> (N.eqb c 43 || N.eqb c 45)%bool = true -> to_digit r c = None.
Proof. intros R H. apply orb_prop in H as [H|H]; apply N.eqb_eq in H as ->; destruct R as [-> | ->]; reflexivity. Qed.
(** a text whose first character is no sign is accumulated *)
Lemma radix_acc r t : (r = 10 \/ r = 16)%Z -> starts_with_sign t = false -> t <> [] -> from_str_radix r t = Num_Model.accumulate r false 0 t.
Proof.
  intros R S N. destruct t as [|c [|d t]]; [easy|..]; cbn [starts_with_sign] in S; cbn [from_str_radix]; [now rewrite S|]. apply orb_false_iff in S as [-> ->]. reflexivity.
Qed.
Lemma radix_zeros r t z : (r = 10 \/ r = 16)%Z -> from_str_radix r t = inl z -> match drop_zeros t with [] => z = 0%Z | d => from_str_radix r d = inl z end.
Proof.
  intros R H. destruct t as [|c t]; [discriminate|]. cbn [drop_zeros]. destruct (N.eqb c 48) eqn:C; [|exact H]. apply N.eqb_eq in C as ->.
  rewrite radix_acc in H by (auto; discriminate). apply acc_zeros in H; [|easy]. cbn [drop_zeros N.eqb Pos.eqb] in H. change (N.eqb 48 48) with true in H. cbn iota in H.
  destruct (drop_zeros t) as [|d s] eqn:D; [exact H|]. rewrite radix_acc; auto; [|discriminate].
  cbn [starts_with_sign]. apply not_true_is_false. intros X. cbn [Num_Model.accumulate] in H. now rewrite (sign_digit _ _ R X) in H.
Qed.
(** a number has no white space around it *)
Lemma digit_solid r c d : (r = 10 \/ r = 16)%Z -> to_digit r c = Some d -> is_ws c = false.
Proof.
  intros R H. assert (B : (48 <= c <= 57 \/ 97 <= c <= 122 \/ 65 <= c <= 90)%N).
  { unfold to_digit in H. destruct (Z.leb_spec 48 (Z.of_N c)), (Z.leb_spec (Z.of_N c) 57); cbn [andb] in H; try lia;
      destruct (Z.leb_spec 97 (Z.of_N c)), (Z.leb_spec (Z.of_N c) 122); cbn [andb] in H; try lia;
      destruct (Z.leb_spec 65 (Z.of_N c)), (Z.leb_spec (Z.of_N c) 90); cbn [andb] in H; try lia; rewrite Z.ltb_irrefl in H; discriminate. }
  unfold is_ws. repeat match goal with
    | |- context [(?x <=? ?y)%N] => let E := fresh in destruct (N.leb_spec x y) as [E|E]
    | |- context [N.eqb ?x ?y] => let E := fresh in destruct (N.eqb_spec x y) as [E|E]
    end; cbn; try reflexivity; lia.
Qed.
Lemma acc_solid r neg t : (r = 10 \/ r = 16)%Z -> forall a z, Num_Model.accumulate r neg a t = inl z -> forallb (fun c => negb (is_ws c)) t = true.
Proof.
  intros R. induction t as [|c t IH]; intros a z; [reflexivity|]. cbn [Num_Model.accumulate forallb]. destruct (to_digit r c) as [d|] eqn:D; [|discriminate].
  destruct (in_i128 _); [|discriminate]. destruct (in_i128 _); [|discriminate]. intros H. rewrite (digit_solid _ _ _ R D). apply IH in H. now rewrite H.
Qed.
Lemma radix_solid r t z : (r = 10 \/ r = 16)%Z -> from_str_radix r t = inl z -> forallb (fun c => negb (is_ws c)) t = true.
Proof.
  intros R H. destruct t as [|c [|d t]]; cbn [from_str_radix] in H; [discriminate|..].
  - destruct (_ || _)%bool; [discriminate|]. eapply acc_solid; eauto.
  - destruct (N.eqb_spec c 43) as [->|]; [apply acc_solid in H; auto|]. destruct (N.eqb_spec c 45) as [->|]; [apply acc_solid in H; auto|]. eapply acc_solid; eauto.
Qed.
Lemma trim_solid t : forallb (fun c => negb (is_ws c)) t = true -> trim_white t = t.
Proof.
  assert (D : forall s, forallb (fun c => negb (is_ws c)) s = true -> (fix drop s := match s with c :: r => if is_ws c then drop r else s | [] => [] end) s = s).
  { intros [|c s] H; [reflexivity|]. cbn in H |- *. apply andb_prop in H as [H _]. apply negb_true_iff in H. now rewrite H. }
  intros H. unfold trim_white. cbn zeta. rewrite (D t H), D, rev_involutive; [reflexivity|]. rewrite forallb_forall in *. intros c Hc. apply H. now apply in_rev.
Qed.
Lemma parse_solid t f z : parse_with_format t f = POk z -> forallb (fun c => negb (is_ws c)) t = true.
Proof.
  destruct f as [p|p|p pre c]; cbn [parse_with_format].
  - destruct (starts_with_sign t); [discriminate|]. destruct (from_str_radix 10 t) eqn:E; [|discriminate]. intros _. apply radix_solid in E; auto.
  - destruct (from_str_radix 10 t) eqn:E; [|discriminate]. intros _. apply radix_solid in E; auto.
  - destruct (strip_0x t) as [r|] eqn:S.
    + destruct (from_str_radix 16 r) eqn:E; [|discriminate]. intros _. apply radix_solid in E; auto.
      destruct t as [|a [|x t]]; try discriminate. cbn in S. destruct (N.eqb_spec a 48) as [->|]; [|discriminate]. destruct (N.eqb_spec x 120) as [->|]; [|discriminate]. injection S as ->. exact E.
    + destruct pre; [discriminate|]. destruct (from_str_radix 16 t) eqn:E; [|discriminate]. intros _. apply radix_solid in E; auto.
Qed.
Lemma check_ok p n v z : check_precision p n v = POk z -> z = v.
Proof. unfold check_precision. destruct (Nat.eqb p 0); [now intros [= <-]|]. destruct (n <? p); [discriminate|now intros [= <-]]. Qed.
Lemma operand_agrees t p signed v z : operand_number t p signed = Some v -> from_str_radix 10 t = inl z -> v = z.
Proof.
  unfold operand_number. intros H R. destruct (0 <? p).
  - destruct (p <? length t); [discriminate|]. apply radix_zeros in R; [|auto]. destruct (drop_zeros t); [now injection H as <-|]. rewrite R in H. destruct (_ && _)%bool; [discriminate|]. now injection H as <-.
  - rewrite R in H. destruct (_ && _)%bool; [discriminate|]. now injection H as <-.
Qed.
Lemma numeric_agrees t f n z : as_numeric (VStr t) f = Val n -> parse_with_format t (format_of f) = POk z -> n = mkNum f z.
Proof.
  intros H P. pose proof (trim_solid _ (parse_solid _ _ _ P)) as T. unfold as_numeric in H. fold (format_of f) in H. rewrite T in H.
  destruct (format_of f) as [p|p|p pre c]; cbn [parse_with_format] in P.
  - destruct (starts_with_sign t); [discriminate|]. destruct (from_str_radix 10 t) as [v|] eqn:E; [|discriminate]. apply check_ok in P as ->.
    destruct (operand_number t p false) as [w|] eqn:O; [|discriminate]. injection H as <-. now rewrite (operand_agrees _ _ _ _ _ O E).
  - destruct (from_str_radix 10 t) as [v|] eqn:E; [|discriminate]. apply check_ok in P as ->.
    destruct (operand_number t p true) as [w|] eqn:O; [|discriminate]. injection H as <-. now rewrite (operand_agrees _ _ _ _ _ O E).
  - destruct pre.
    + destruct (strip_0x t) as [r|]; [|discriminate]. destruct (from_str_radix 16 r) as [v|] eqn:E; [|discriminate]. destruct (negb _); [discriminate|]. apply check_ok in P as ->.
      destruct (p <? length r); [discriminate|]. apply radix_zeros in E; [|auto]. destruct (drop_zeros r); [injection H as <-; now rewrite E|]. rewrite E in H. now injection H as <-.
    + destruct (strip_0x t) as [r|] eqn:S.
      * exfalso. destruct (p <? length t); [discriminate|]. destruct t as [|a [|x t]]; try discriminate. cbn in S. destruct (N.eqb_spec a 48) as [->|]; [|discriminate]. destruct (N.eqb_spec x 120) as [->|]; [|discriminate]. cbn in H. destruct t; discriminate.
      * destruct (from_str_radix 16 t) as [v|] eqn:E; [|discriminate]. destruct (negb _); [discriminate|]. apply check_ok in P as ->.
        destruct (p <? length t); [discriminate|]. apply radix_zeros in E; [|auto]. destruct (drop_zeros t); [injection H as <-; now rewrite E|]. rewrite E in H. now injection H as <-.
Qed.

(** * Compaction of a pattern with substitutions *)
Fixpoint segments (p : pending) (l : list part) : list kpart :=
  match l with
  | [] => pending_part p
  | q :: r => if is_dynamic q then pending_part p ++ (match q with QMatch m => [KMatch m] | _ => [] end) ++ segments nothing_pending r
              else segments (snd (compact_one ([], p) q)) r
  end.
Lemma compact_one_static out p q : is_dynamic q = false -> compact_one (out, p) q = (out, snd (compact_one ([], p) q)).
Proof. destruct q as [s|s|[v [s|]|f [v|] [x|]]]; cbn; try discriminate; reflexivity. Qed.
Lemma compact_one_dynamic out p q : is_dynamic q = true -> compact_one (out, p) q = (out ++ pending_part p ++ (match q with QMatch m => [KMatch m] | _ => [] end), nothing_pending).
Proof. destruct q as [s|s|[v [s|]|f [v|] [x|]]]; cbn; try discriminate; reflexivity. Qed.
Lemma compact_segments l : forall out p, let r := fold_left compact_one l (out, p) in
  fst r ++ pending_part (snd r) = out ++ segments p l /\ (fst r = [] -> forallb (fun q => negb (is_dynamic q)) l = true).
Proof.
  induction l as [|q l IH]; intros out p; cbn zeta; cbn [fold_left segments forallb]; [auto|]. destruct (is_dynamic q) eqn:D.
  - rewrite compact_one_dynamic by easy. specialize (IH (out ++ pending_part p ++ match q with QMatch m => [KMatch m] | _ => [] end) nothing_pending). cbn zeta in IH. destruct IH as [IH IH2]. split; [rewrite IH, <- !app_assoc; reflexivity|].
    intros E. exfalso. assert (G : forall l out p, fst (fold_left compact_one l (out, p)) = [] -> out = []).
    { clear. induction l as [|q l IH]; intros out p E; [exact E|]. cbn [fold_left] in E. destruct (is_dynamic q) eqn:D.
      - rewrite compact_one_dynamic in E by easy. apply IH in E. now apply app_eq_nil in E as [E _].
      - rewrite compact_one_static in E by easy. now apply IH in E. }
    apply G in E. apply app_eq_nil in E as [_ E]. apply app_eq_nil in E as [_ E]. destruct q; discriminate.
  - rewrite compact_one_static by easy. specialize (IH out (snd (compact_one ([], p) q))). cbn zeta in IH. destruct IH as [IH IH2]. split; [exact IH|]. auto.
Qed.
Lemma compact_dynamic l : existsb is_dynamic l = true -> compact (PParts l) = KpParts (segments nothing_pending l).
Proof.
  intros H. pose proof (compact_segments l [] nothing_pending) as C. cbn zeta in C. unfold compact. destruct l as [|q l]; [discriminate|].
  destruct (fold_left compact_one (q :: l) ([], nothing_pending)) as [out p] eqn:E. cbn [fst snd app] in C. destruct C as [C1 C2].
  destruct out as [|o out]; [|now rewrite C1]. exfalso. specialize (C2 eq_refl). rewrite forallb_forall in C2. apply existsb_exists in H as (x & Hx & Dx). specialize (C2 x Hx). now rewrite Dx in C2.
Qed.
Lemma static_not_dynamic ci q : static ci q -> is_dynamic q = false.
Proof. now destruct 1. Qed.

(** the static parts that a pending text stands for *)
Definition stands (ci : bool) (p : pending) (lp : list part) : Prop :=
  Forall (static ci) lp /\ as_regex p = flat_map part_text lp /\ p_caps p = flat_map part_caps lp /\ p_lit p = forallb is_literal lp.
Lemma stands_nil ci : stands ci nothing_pending [].
Proof. unfold stands. auto. Qed.
Lemma stands_snoc ci p lp q : stands ci p lp -> static ci q -> stands ci (snd (compact_one ([], p) q)) (lp ++ [q]).
Proof.
  intros (A & B & C & D) S. destruct (compact_static ci [q] (Forall_cons _ S (Forall_nil _)) p) as (p' & E & T & Cs & L). cbn [fold_left] in E.
  rewrite E. cbn [snd]. unfold stands. rewrite T, Cs, L, B, C, D, !flat_map_app, forallb_app. splits; auto. apply Forall_app. auto.
Qed.

(** * Going through the parts *)
Section Go.
Context (ci : bool) (fuel : nat) (b : bytes) (line : Z) (e : nat) (Be : e <= length b).
Notation E := ascii_engine.
Notation op := (op E).
Notation mach := Smart_Model.mach.
Notation part_at := (match_part E ci fuel b line).
(** the operations one after the other, without the check that something is left to match *)
Inductive goes : list op -> nat -> mach -> nat -> mach -> Prop :=
| go_end i m : goes [] i m i m
| go_part o l i m s m1 j m2 : (forall v t, o <> OBind E v t) -> (forall x, o <> OCons E x) ->
    part_at o (mkRange i e) true m = Val (Some (s, m1)) -> goes l (rend s) m1 j m2 -> goes (o :: l) i m j m2
| go_bind v t l i m top st w j m2 : Smart_Model.x_stack m = top :: st ->
    (match t with Some (TyNum f) => do n <- as_numeric top f; Val (VNum (ENum n)) | _ => Val top end) = Val w ->
    goes l i (mkMach st (x_got m) (b_insert (Smart_Model.x_env m) v w)) j m2 -> goes (OBind E v t :: l) i m j m2
| go_check x l i m j m2 : goes l i m j m2 -> goes (OCons E x :: l) i m j m2.
Lemma parts_go l : forall i m j m2, match_parts E ci fuel b line l i e m = Val (inr (j, m2)) -> goes l i m j m2.
Proof.
  induction l as [|o l IH]; intros i m j m2; cbn [match_parts]; [intros [= <- <-]; constructor|].
  destruct (e <=? i); [discriminate|].
  assert (G : forall (N1 : forall v t, o <> OBind E v t) (N2 : forall x, o <> OCons E x),
    (do h <- part_at o (mkRange i e) true m; match h with Some (s, m') => match_parts E ci fuel b line l (rend s) e m' | None => Val (inl i) end) = Val (inr (j, m2)) -> goes (o :: l) i m j m2).
  { intros N1 N2 H. destruct (part_at o (mkRange i e) true m) as [[[s m1]|]| |] eqn:P; try discriminate. cbn [bind] in H. eapply go_part; eauto. }
  destruct o as [t|x gs|f c|x ty|v ty|x]; try (apply G; discriminate).
  - destruct (Smart_Model.x_stack m) as [|top st] eqn:S; [discriminate|]. intros H.
    destruct (match ty with Some (TyNum f) => do n <- as_numeric top f; Val (VNum (ENum n)) | _ => Val top end) as [w| |] eqn:W.
    + cbn [bind] in H. eapply go_bind; eauto.
    + cbn [bind] in H. discriminate.
    + cbn [bind] in H. discriminate.
  - destruct (Smart_Model.x_stack m) as [|top st] eqn:S; [discriminate|]. intros H. destruct (evaluate _ _ _ _ _) as [[n|]| |]; try discriminate. cbn [bind] in H.
    destruct (as_numeric _ _); try discriminate. cbn [bind] in H. apply go_check. auto.
Qed.
Lemma goes_nil i m j m2 : goes [] i m j m2 -> j = i /\ m2 = m.
Proof. intros H. inversion H; auto. Qed.
Lemma goes_part o l i m j m2 : (forall v t, o <> OBind E v t) -> (forall x, o <> OCons E x) -> goes (o :: l) i m j m2 ->
  exists s m1, part_at o (mkRange i e) true m = Val (Some (s, m1)) /\ goes l (rend s) m1 j m2.
Proof. intros N1 N2 H. inversion H; subst; [eauto|now destruct (N1 v t)|now destruct (N2 x)]. Qed.
Lemma goes_bind v t l i m j m2 : goes (OBind E v t :: l) i m j m2 -> exists top st w, Smart_Model.x_stack m = top :: st /\
  (match t with Some (TyNum f) => do n <- as_numeric top f; Val (VNum (ENum n)) | _ => Val top end) = Val w /\ goes l i (mkMach st (x_got m) (b_insert (Smart_Model.x_env m) v w)) j m2.
Proof. intros H. inversion H as [|? ? ? ? ? ? ? ? N1| |]; subst; [now destruct (N1 v t)|eauto 10]. Qed.
Lemma goes_check x l i m j m2 : goes (OCons E x :: l) i m j m2 -> goes l i m j m2.
Proof. intros H. inversion H as [|? ? ? ? ? ? ? ? N1 N2| |]; subst; [now destruct (N2 x)|easy]. Qed.
Lemma goes_app l1 : forall l2 i m j m2, goes (l1 ++ l2) i m j m2 -> exists k m1, goes l1 i m k m1 /\ goes l2 k m1 j m2.
Proof.
  induction l1 as [|o l1 IH]; intros l2 i m j m2 H; [exists i, m; split; [constructor|exact H]|]. cbn [app] in H. inversion H; subst.
  - match goal with G : goes (l1 ++ l2) _ _ _ _ |- _ => apply IH in G as (k & m3 & A & B) end. exists k, m3. split; [|easy]. eapply go_part; eauto.
  - match goal with G : goes (l1 ++ l2) _ _ _ _ |- _ => apply IH in G as (k & m3 & A & B) end. exists k, m3. split; [|easy]. eapply go_bind; eauto.
  - match goal with G : goes (l1 ++ l2) _ _ _ _ |- _ => apply IH in G as (k & m3 & A & B) end. exists k, m3. split; [|easy]. now apply go_check.
Qed.
(** what was captured stays *)
Lemma part_got o r a m s m1 : part_at o r a m = Val (Some (s, m1)) -> incl (x_got m) (x_got m1).
Proof.
  destruct o as [t|x gs|f c|x ty|v ty|x]; cbn [match_part]; try discriminate.
  - destruct (leftmost _ _ _ _ _ _); [|discriminate]. intros [= _ <-]. apply incl_refl.
  - destruct (rx_search _ _ _ _ _) as [[|[h|] lg]|]; try discriminate. intros [= _ <-]. cbn. apply incl_appl, incl_refl.
  - destruct (slice b r) as [[|c0 s0]|]; try discriminate. cbn [unwrap bind]. destruct (rx_build _ _ _); [|discriminate]. cbn [unwrap bind].
    destruct (rx_search _ _ _ _ _) as [[|[h|] lg]|]; try discriminate. destruct c as [c|]; [|intros [= _ <-]; apply incl_refl].
    destruct (parse_with_format _ _); [|discriminate]. intros [= _ <-]. cbn. apply incl_appl, incl_refl.
  - destruct (evaluate _ _ _ _ _) as [v| |]; try discriminate. cbn [bind]. destruct (regex_of _ _ _) as [y| |]; try discriminate. cbn [bind].
    destruct (rx_search _ _ _ _ _) as [[|[h|] lg]|]; try discriminate. intros [= _ <-]. apply incl_refl.
Qed.
Lemma goes_got l i m j m2 : goes l i m j m2 -> incl (x_got m) (x_got m2).
Proof.
  induction 1 as [|o l i m s m1 j m2 N1 N2 P G IH|v t l i m top st w j m2 S W G IH|x l i m j m2 G IH]; [apply incl_refl| |exact IH|exact IH].
  apply part_got in P. eapply incl_tran; eauto.
Qed.
(** the captures that the result reports could be converted *)
Definition good_got (m : mach) : Prop := forall r c, In (r, c) (x_got m) -> exists v, convert (text_of b r) (k_ty c) = Some v.
End Go.

Lemma spans_spec ci l ts n rs idx b i j g cs : parts_ok ci l ts n rs idx -> map fst cs = flat_map part_caps l ->
  Forall2 (fun c k => exists r, g k = Some r /\ snd c = text_of b r) cs idx ->
  Forall2 (fun rc c => snd rc = fst c /\ text_of b (fst rc) = snd c)
    (capture_spans (combine idx (flat_map part_caps l)) (Some (mkRange i j) :: map g (seq 1 (length (None :: open_names ts) - 1)))) cs.
Proof.
  intros P Ec Cc. pose proof (flat_facts _ _ _ _ (pso_flat _ _ _ _ _ _ P)) as [En2 _]. pose proof (pso_idx _ _ _ _ _ _ P) as X. clear -Cc Ec X En2.
  rewrite <- Ec. cbn [length]. replace (S (length (open_names ts)) - 1) with n by lia. clear Ec En2. unfold capture_spans.
  induction Cc as [|c k cs ks (r & Hr & Er) Cc IH]; [constructor|]. inversion X as [|? ? Xk X2]; subst. cbn [map combine flat_map].
  assert (G : group_span (Some (mkRange i j) :: map g (seq 1 n)) k = Some r).
  { unfold group_span. destruct k as [|k]; [lia|]. cbn [nth_error]. rewrite nth_error_map, nth_error_nth' with (d := 0) by (rewrite seq_length; lia). rewrite seq_nth by lia. cbn [option_map Nat.add] in *. now rewrite Hr. }
  cbn [fst snd]. rewrite G. cbn [app]. constructor; [split; [reflexivity|now cbn]|]. apply IH. exact X2.
Qed.
Lemma static_built ci l ts n rs idx x : parts_ok ci l ts n rs idx -> build ci (flat_map part_text l) = Some x ->
  x = mkRx ci (cat rs) (None :: open_names ts) /\ NoDup (flat_map part_names l) /\ groups_of (x_names x) (flat_map part_caps l) = Val (combine idx (flat_map part_caps l)).
Proof.
  intros P B. unfold build in B. destruct (pso_flat _ _ _ _ _ _ P) as (L & M & H). rewrite L in B. unfold parse_tokens in B. rewrite H in B.
  destruct (distinct (some_names (open_names ts))) eqn:D; [|discriminate]. unfold alt in B. cbn [option_map f_alts f_cur fold_left] in B. rewrite rev_involutive in B. injection B as <-.
  apply distinct_nodup in D. splits; [reflexivity|now rewrite <- (pso_names _ _ _ _ _ _ P)|]. apply groups_index; [exact D|exact (pso_own _ _ _ _ _ _ P)].
Qed.
Lemma caps_nodup ci l : Forall (static ci) l -> NoDup (flat_map part_names l) -> NoDup (map (fun c => v_text (k_name c)) (flat_map part_caps l)).
Proof.
  assert (I : forall l, incl (map (fun c => v_text (k_name c)) (flat_map part_caps l)) (flat_map part_names l)).
  { intros m x Hx. apply in_map_iff in Hx as (c & <- & Hc). apply in_flat_map in Hc as (q & Hq & Hc). apply in_flat_map. exists q. split; [easy|].
    destruct q as [s|s|[v [s|]|f [v|] [y|]]]; cbn in *; try easy; destruct Hc as [<-|[]]; cbn; auto. }
  induction 1 as [|q l Hq Hl IH]; cbn [flat_map]; [constructor|]. intros D. rewrite map_app. assert (D2 : NoDup (flat_map part_names l)) by (clear -D; induction (part_names q) as [|y r IHr]; [exact D|]; inversion D; auto).
  specialize (IH D2). destruct Hq; cbn [part_caps map app] in *; auto; inversion D as [|? ? N _]; subst; constructor; auto; intros Hi; apply N; [apply in_or_app; right|]; now apply I.
Qed.

Section Segment.
Context (ci strict : bool) (fuel : nat) (b : bytes) (line : Z) (e : nat) (Be : e <= length b).
Notation E := ascii_engine.
Notation goes := (goes ci fuel b line e).
Notation linked := (linked ci b e line).
(** a run of captures *)
Lemma binds_go bs : forall i m j m2 st, goes (map (fun rc : range * capt => OBind E (k_name (snd rc)) (Some (k_ty (snd rc)))) bs) i m j m2 ->
  Smart_Model.x_stack m = map (fun rc => VStr (text_of b (fst rc))) bs ++ st ->
  (forall rc, In rc bs -> exists v, convert (text_of b (fst rc)) (k_ty (snd rc)) = Some v) ->
  exists ws, Forall2 (fun rc w => fst w = k_name (snd rc) /\ kept (k_ty (snd rc)) (text_of b (fst rc)) (snd w)) bs ws /\
    j = i /\ m2 = mkMach st (x_got m) (defined (Smart_Model.x_env m) ws).
Proof.
  induction bs as [|[r c] bs IH]; intros i m j m2 st H S C; cbn [map fst snd app] in *.
  - apply goes_nil in H as [-> ->]. exists []. splits; auto. destruct m; cbn in *. now subst.
  - apply goes_bind in H as (top & st' & w & St & W & H). rewrite S in St. injection St as <- <-.
    apply IH with (st := st) in H as (ws & F & -> & ->); [|reflexivity|intros rc Hrc; apply C; now right].
    exists ((k_name c, w) :: ws). splits; auto. constructor; [|exact F]. split; [reflexivity|]. cbn [fst snd].
    destruct (C (r, c) (or_introl eq_refl)) as (v & V). cbn [fst snd] in V. destruct (k_ty c) as [|f].
    + injection W as <-. constructor.
    + destruct (as_numeric _ f) as [n| |] eqn:A; try discriminate. injection W as <-. cbn [convert] in V. fold (format_of f) in V. destruct (parse_with_format _ (format_of f)) as [z|] eqn:P; [|discriminate].
      rewrite (numeric_agrees _ _ _ _ A P). now constructor.
Qed.
Lemma map_snd_combine {A B} (l : list A) : forall (m : list B), length l = length m -> map snd (combine l m) = m.
Proof. induction l as [|x l IH]; intros [|y m] H; cbn in *; try discriminate; auto. f_equal. auto. Qed.
Lemma search_at x i l : x_ci x = ci -> proper (x_re x) -> i <= e -> re_search x b (mkRange i e) true = Some l ->
  exists j g, l = Some (mkRange i j) :: map g (seq 1 (length (x_names x) - 1)) /\ run ci b e (x_re x) i no_caps j g /\ i <= j <= e.
Proof.
  intros C P L H. apply search_some in H as (i' & j & g & -> & L2 & A & R & _); [|exact P]. cbn [rstart rend] in *. rewrite (A eq_refl) in *. rewrite C in R. exists j, g. splits; auto;
    apply (proj1 (run_lang _ _ _)) in R; apply (proj1 (lang_bounds _ _ _)) in R as [? ?]; auto.
Qed.
(** a regular expression with captures *)
Lemma regex_go lp ops i m j m2 : Forall (static ci) lp -> i <= e ->
  regex_ops E ci (flat_map part_text lp) (flat_map part_caps lp) = Val ops -> goes ops i m j m2 -> good_got b m2 ->
  exists F, linked lp (Smart_Model.x_env m) i j F /\ same_vars F (Smart_Model.x_env m2) /\ Smart_Model.x_stack m2 = Smart_Model.x_stack m /\ i <= j <= e.
Proof.
  intros S L H G Gd. destruct (statics_ok ci lp S) as (ts & n & rs & idx & P). unfold regex_ops, regex_of in H. cbn [rx_build ascii_engine] in H.
  destruct (build ci (flat_map part_text lp)) as [x|] eqn:B; [|discriminate]. cbn [bind] in H. pose proof (build_proper _ _ _ B) as [Px Cx].
  destruct (static_built _ _ _ _ _ _ _ P B) as (Ex & D & Gr). cbn [rx_groups ascii_engine] in H. rewrite Gr in H. cbn [bind] in H. injection H as <-.
  apply goes_part in G as (s & m1 & Pa & G); [|discriminate..]. cbn [match_part rx_search ascii_engine] in Pa.
  destruct (re_search x b (mkRange i e) true) as [lg|] eqn:Se; [|discriminate]. apply search_at in Se as (j0 & g & -> & R & Lj); auto.
  injection Pa as <- <-. cbn [rend] in G. rewrite Ex in R. cbn [x_re] in R.
  assert (R0 : run ci b e (cat (map (re_shift 0) rs)) i no_caps j0 g). { rewrite (map_ext _ (fun r => r)), map_id; [exact R|]. clear. intros r. induction r; cbn [re_shift Nat.add]; congruence. }
  destruct (pso_run _ _ _ _ _ _ P b e 0 i no_caps j0 g Be L R0) as (cs & Pc & Ec & Cc).
  pose proof (spans_spec _ _ _ _ _ _ b i j0 g cs P Ec Cc) as F2. rewrite Ex in G. cbn [x_names] in G.
  set (spans := capture_spans (combine idx (flat_map part_caps lp)) (Some (mkRange i j0) :: map g (seq 1 (length (None :: open_names ts) - 1)))) in *.
  assert (Es : map snd spans = flat_map part_caps lp). { rewrite <- Ec. clear -F2. induction F2 as [|rc c l1 l2 [A _] F IH]; cbn; [easy|]. now rewrite A, IH. }
  assert (Eb : map (fun g0 : nat * capt => OBind E (k_name (snd g0)) (Some (k_ty (snd g0)))) (rev (combine idx (flat_map part_caps lp))) =
               map (fun rc : range * capt => OBind E (k_name (snd rc)) (Some (k_ty (snd rc)))) (rev spans)).
  { rewrite !map_rev. f_equal. rewrite <- (map_map snd (fun c => OBind E (k_name c) (Some (k_ty c)))), <- (map_map snd (fun c => OBind E (k_name c) (Some (k_ty c))) spans). f_equal. rewrite Es. apply map_snd_combine.
    symmetry. eapply Forall2_len, (pso_own _ _ _ _ _ _ P). }
  rewrite Eb in G. pose proof (goes_got _ _ _ _ _ _ _ _ _ _ G) as Inc. cbn [x_got] in Inc.
  apply binds_go with (st := Smart_Model.x_stack m) in G as (ws & K & -> & ->).
  - cbn [Smart_Model.x_env Smart_Model.x_stack x_got] in *.
    assert (Kv : all_kept cs (rev ws)).
    { unfold all_kept. assert (K2 : Forall2 (fun rc w => fst w = k_name (snd rc) /\ kept (k_ty (snd rc)) (text_of b (fst rc)) (snd w)) spans (rev ws)).
      { rewrite <- (rev_involutive spans). clear -K. induction K as [|a w l1 l2 H K IH]; [constructor|]. cbn [rev]. apply Forall2_app_; auto. }
      clear -K2 F2. revert cs F2. induction K2 as [|rc w l1 l2 [A C] K IH]; intros cs F2; inversion F2 as [|? c ? l3 [E1 E2] F3]; subst; constructor; auto. rewrite <- E1, <- E2. auto. }
    exists (defined (Smart_Model.x_env m) (rev ws)). splits; auto; try lia.
    + eapply pieces_linked; eauto.
    + pose proof (caps_nodup _ _ S D) as Nd. rewrite <- (rev_involutive ws) at 2. apply same_sym. apply defined_rev.
      assert (En : map v_text (map fst (rev ws)) = map (fun c => v_text (k_name c)) (flat_map part_caps lp)).
      { rewrite <- Ec. clear -Kv. induction Kv as [|c w l1 l2 [A _] K IH]; cbn; [easy|]. now rewrite A, IH. }
      rewrite <- En in Nd. now apply NoDup_map_inv in Nd.
  - cbn [Smart_Model.x_stack]. now rewrite map_rev.
  - intros [r c] Hrc. cbn [fst snd]. apply (Gd r c). apply Inc. apply in_or_app. right. now apply in_rev.
Qed.
(** a literal *)
Lemma literal_go lp t i m s m1 : Forall (static ci) lp -> escape t = flat_map part_text lp -> i <= e -> forallb is_literal lp = true ->
  match_part E ci fuel b line (OLit E t) (mkRange i e) true m = Val (Some (s, m1)) ->
  linked lp (Smart_Model.x_env m) i (rend s) (Smart_Model.x_env m) /\ m1 = m /\ i <= rend s <= e.
Proof.
  intros S T L Lt H. cbn [match_part rstart rend] in H. cbn [leftmost] in H. destruct (occurs ci b e i t) eqn:O; [|discriminate]. injection H as <- <-. cbn [rend].
  apply Lit_Proofs.occurs_spec in O as [L2 At]. splits; auto; try lia.
  assert (R : reads ci b e t i (i + length t)) by (apply reads_piece; auto; now constructor).
  apply cat_reads in R; auto.
  destruct (statics_ok ci lp S) as (ts & n & rs & idx & P). destruct (pso_flat _ _ _ _ _ _ P) as (Lx & _ & St). rewrite <- T, escape_lex in Lx. injection Lx as <-.
  rewrite chars_steps, app_nil_r in St. injection St as _ St. apply (f_equal (@rev re)) in St. rewrite !rev_involutive in St. subst rs.
  apply (proj1 (lang_run _ _ _)) with (g := no_caps) in R as (h & R).
  assert (R0 : run ci b e (cat (map (re_shift 0) (map (fun c => RSet (chr c)) t))) i no_caps (i + length t) h) by (rewrite map_map; exact R).
  destruct (pso_run _ _ _ _ _ _ P b e 0 i no_caps _ h Be L R0) as (cs & Pc & Ec & _).
  assert (C : flat_map part_caps lp = []). { clear -Lt. induction lp as [|q lp IH]; [easy|]. cbn in Lt |- *. apply andb_prop in Lt as [A B]. destruct q; try discriminate. cbn. auto. }
  rewrite C in Ec. destruct cs; [|discriminate]. eapply (pieces_linked _ _ _ _ _ _ _ _ Pc _ []). constructor.
Qed.
Lemma escape_nil t : escape t = [] -> t = [].
Proof. unfold escape. destruct t as [|c t]; [reflexivity|]. cbn [flat_map]. intros H. apply app_eq_nil in H as [H _]. destruct (is_meta c); discriminate. Qed.
(** nothing at all *)
Lemma empty_go lp i E0 : Forall (static ci) lp -> flat_map part_text lp = [] -> i <= e -> linked lp E0 i i E0.
Proof.
  intros S. revert E0. induction S as [|q lp Hq Hl IH]; intros E0 T L; [constructor|]. cbn [flat_map] in T. apply app_eq_nil in T as [T1 T2].
  assert (Pq : piece ci b e q i i []).
  { destruct Hq as [t|s x Bx A|v s x Bx Id|f C|f v C Id]; cbn [part_text] in T1.
    - apply escape_nil in T1 as ->. replace i with (i + length (@nil N)) at 2 by (cbn; lia). apply pc_lit; [cbn; lia|]. intros k y Hk. destruct k; discriminate.
    - subst s. eapply pc_regex; [reflexivity|]. constructor.
    - discriminate.
    - destruct f; discriminate.
    - discriminate. }
  eapply lk_piece; [exact Pq|constructor|]. now apply IH.
Qed.
End Segment.
