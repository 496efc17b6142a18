(** C68: the expressions of numeric blocks. *)
From Coq Require Import String.
From Verif Require Import Base Num_Model Num_Spec Num_Proofs Env_Model Gram_Model Gram_Proofs Script_Model Parse_Model Parse_Spec Pat_Spec Sum_Spec.
From Verif Require Import Pat_Proofs Pat_Block.
From Verif Require Num_Props.
Open Scope string_scope.
Open Scope list_scope.
Notation length := List.length.
Ltac splits := repeat match goal with |- _ /\ _ => split end.

(** ** Words of a block *)
Definition clean (ts : list token) : Prop := forall w, In (TIdent w) ts -> forall l, from_call w l = None.
Lemma clean_app a b : clean (a ++ b) <-> clean a /\ clean b.
Proof. unfold clean. split; [intros H; split; intros w I; apply H; apply in_or_app; auto|intros [H1 H2] w I; apply in_app_or in I as []; auto]. Qed.
Lemma clean_cons t a : clean (t :: a) -> clean a.
Proof. unfold clean. intros H w I. apply H. now right. Qed.
Lemma ident_of w u : keyword_or_ident w = TIdent u -> u = w.
Proof. unfold keyword_or_ident. repeat destruct (str_eqb w _); try discriminate. now intros [= ->]. Qed.
Lemma no_call_ident w l : keyword_or_ident w = TIdent w -> from_call w l = None.
Proof.
  intros K. unfold from_call. destruct l as [|a [|b [|c l]]]; try reflexivity. unfold keyword_or_ident in K.
  destruct (str_eqb w (of_string "LITERAL")) eqn:E1; [discriminate|]. destruct (str_eqb w (of_string "LINE")) eqn:E2; [discriminate|].
  repeat match type of K with (if ?b then _ else _) = _ => destruct b; [discriminate|] end. reflexivity.
Qed.
Lemma spelt_clean numeric gap s ts : spelt numeric gap s ts -> clean ts.
Proof.
  induction 1 as [| | gap x t g s ts I H IH | gap s ts N H IH | | gap w t0 s ts W K N H IH | gap ds n s ts N V L X1 X2 X3 H IH | gap ds n s ts N V L X H IH | gap ds n s ts N V L X H IH];
    intros u Iu; auto; try (destruct Iu as [E|Iu]; [try discriminate|try (now apply IH)]).
  - easy.
  - cbn in I. repeat destruct I as [[= <- <- <-]|I]; try discriminate. easy.
  - destruct Iu as [E|[]]. discriminate.
  - subst t0. apply word_is_spec in K. pose proof (ident_of _ _ K). subst. intros l. now apply no_call_ident.
Qed.
Lemma names_var ws v : names ws v <-> d_var ws v.
Proof.
  split.
  - intros []; try (apply dv_pattern; constructor). apply dv_line_var. constructor.
  - intros [? ? []|? ? []]; constructor.
Qed.
Lemma function_op f op : function f op <-> binop_of f = Some op.
Proof. split; [intros []; reflexivity|]. destruct f; try discriminate; intros [= <-]; constructor. Qed.

Scheme term_mut := Minimality for term_value Sort Prop
with sum_mut := Minimality for sum_value Sort Prop
with rest_mut := Minimality for rest_value Sort Prop.
Combined Scheme value_mut from term_mut, sum_mut, rest_mut.

Section Val.
Context (val : vname -> Z -> Prop).
Lemma rest_snoc x r z : rest_value val x r z -> forall t y, term_value val t y ->
  rest_value val x (r ++ TPlus :: t) (z + y) /\ rest_value val x (r ++ TMinus :: t) (z - y).
Proof.
  intros H t y T. induction H as [x|x u v r z U H IH|x u v r z U H IH].
  - cbn. rewrite <- (app_nil_r t). split; [eapply rv_plus|eapply rv_minus]; eauto; constructor.
  - destruct IH as [H1 H2]. cbn [app]. rewrite <- !app_assoc. split; eapply rv_plus; eauto.
  - destruct IH as [H1 H2]. cbn [app]. rewrite <- !app_assoc. split; eapply rv_minus; eauto.
Qed.
Lemma sum_snoc a x t y : sum_value val a x -> term_value val t y ->
  sum_value val (a ++ TPlus :: t) (x + y) /\ sum_value val (a ++ TMinus :: t) (x - y).
Proof.
  intros H T. inversion H as [u r x0 z U R]; subst. destruct (rest_snoc _ _ _ R _ _ T) as [H1 H2].
  rewrite <- !app_assoc. split; econstructor; eauto.
Qed.
Lemma sum_term t z : term_value val t z -> sum_value val t z.
Proof. intros T. rewrite <- (app_nil_r t). econstructor; [eassumption|constructor]. Qed.
Lemma op_add x y z : op_means OAdd x y z <-> z = (x + y)%Z.
Proof. split; [intros H; now inversion H|intros ->; constructor]. Qed.
Lemma op_sub x y z : op_means OSub x y z <-> z = (x - y)%Z.
Proof. split; [intros H; now inversion H|intros ->; constructor]. Qed.
Lemma tree_bin op a b z : tree_value val (PBin op a b) z <-> exists x y, tree_value val a x /\ tree_value val b y /\ op_means op x y z.
Proof. split; [intros H; inversion H; subst; eauto|intros (x & y & A & B & O); econstructor; eauto]. Qed.

(** trees to text *)
Lemma tree_text :
  (forall a e, d_expr a e -> clean a -> forall z, tree_value val e z -> sum_value val a z) /\
  (forall a e, d_sub a e -> clean a -> forall z, tree_value val e z -> term_value val a z) /\
  (forall a e, d_builtin a e -> clean a -> forall z, tree_value val e z -> term_value val a z) /\
  (forall a l, d_args a l -> True).
Proof.
  apply d_mut; auto.
  - intros a b x y _ IHa _ IHb C z T. apply tree_bin in T as (u & v & A & B & O). apply op_add in O as ->.
    apply clean_app in C as [Ca Cb]. apply clean_cons in Cb. exact (proj1 (sum_snoc _ _ _ _ (IHa Ca _ A) (IHb Cb _ B))).
  - intros a b x y _ IHa _ IHb C z T. apply tree_bin in T as (u & v & A & B & O). apply op_sub in O as ->.
    apply clean_app in C as [Ca Cb]. apply clean_cons in Cb. exact (proj2 (sum_snoc _ _ _ _ (IHa Ca _ A) (IHb Cb _ B))).
  - intros a x _ IH C z T. apply sum_term. auto.
  - intros f a l x _ _ E C z T. rewrite (C f (or_introl eq_refl)) in E. discriminate.
  - intros n C z T. inversion T; subst. constructor.
  - intros n C z T. inversion T; subst. constructor.
  - intros a v D C z T. inversion T; subst. eapply tv_name; [exact (proj2 (names_var _ _) D)|easy].
  - intros a x _ IH C z T. apply tv_paren. apply IH; [|easy]. apply clean_cons in C. now apply clean_app in C.
  - intros t op a b x y B _ IHa _ IHb C z T. apply tree_bin in T as (u & v & A & B' & O).
    apply clean_cons, clean_cons in C. apply clean_app in C as [Ca Cb]. apply clean_cons in Cb. apply clean_app in Cb as [Cb _].
    eapply tv_fun; eauto. now apply function_op.
Qed.
(** text to trees *)
Lemma text_tree :
  (forall a z, term_value val a z -> exists e, d_sub a e /\ tree_value val e z) /\
  (forall a z, sum_value val a z -> exists e, d_expr a e /\ tree_value val e z) /\
  (forall x r z, rest_value val x r z -> forall a e, d_expr a e -> tree_value val e x -> exists e', d_expr (a ++ r) e' /\ tree_value val e' z).
Proof.
  apply value_mut.
  - intros n. exists (PNum n). split; [apply ds_num|constructor].
  - intros n. exists (PNum (- n)). split; [apply ds_neg|constructor].
  - intros ws v z N V. exists (PVar v). split; [apply ds_var; now apply names_var|now constructor].
  - intros ws z _ (e & D & T). exists e. split; [now apply ds_paren|easy].
  - intros f op a b x y z F _ (e1 & D1 & T1) _ (e2 & D2 & T2) O. exists (PBin op e1 e2). split; [|econstructor; eauto].
    apply ds_builtin. econstructor; eauto. now apply function_op.
  - intros t r x z _ (e & D & T) _ IH. apply (IH t e); [now apply de_one|easy].
  - intros x a e D T. exists e. rewrite app_nil_r. now split.
  - intros x t y r z _ (e1 & D1 & T1) _ IH a e D T. destruct (IH (a ++ TPlus :: t) (PBin OAdd e e1)) as (e' & D' & T').
    + now apply de_add.
    + econstructor; eauto. constructor.
    + exists e'. split; [|easy]. now rewrite <- app_assoc in D'.
  - intros x t y r z _ (e1 & D1 & T1) _ IH a e D T. destruct (IH (a ++ TMinus :: t) (PBin OSub e e1)) as (e' & D' & T').
    + now apply de_sub.
    + econstructor; eauto. constructor.
    + exists e'. split; [|easy]. now rewrite <- app_assoc in D'.
Qed.
Lemma expr_value a e z : d_expr a e -> clean a -> tree_value val e z <-> sum_value val a z.
Proof.
  intros D C. split; [now apply tree_text|]. intros S0. apply text_tree in S0 as (e' & D' & T). now rewrite (expr_unique _ _ _ D D').
Qed.
End Val.

(** putting a term before a sum *)
Lemma graft_add a x : d_sub a x -> forall b y, d_expr b y -> exists g, d_expr (a ++ TPlus :: b) g /\
  forall val z, tree_value val g z <-> tree_value val (PBin OAdd x y) z.
Proof.
  intros Da. refine (d_expr_mut (fun b y => exists g, d_expr (a ++ TPlus :: b) g /\ forall val z, tree_value val g z <-> tree_value val (PBin OAdd x y) z)
     (fun b y => d_sub b y) (fun b y => d_builtin b y) (fun b l => d_args b l) _ _ _ _ _ _ _ _ _ _ _ _); try (intros; econstructor; eauto; fail).
  - intros b c y w _ (g & Dg & V) Dc H. exists (PBin OAdd g w). split.
    + replace (a ++ TPlus :: b ++ TPlus :: c) with ((a ++ TPlus :: b) ++ TPlus :: c) by now rewrite <- app_assoc. now apply de_add.
    + intros val z. rewrite !tree_bin. split.
      * intros (p & q & P & Q & O). apply V, tree_bin in P as (r & s & R & S0 & O'). apply op_add in O, O'. subst.
        exists r, (s + q)%Z. splits; auto; [|apply op_add; lia]. apply tree_bin. exists s, q. splits; auto. now apply op_add.
      * intros (p & q & P & Q & O). apply tree_bin in Q as (r & s & R & S0 & O'). apply op_add in O, O'. subst.
        exists (p + r)%Z, s. splits; auto; [|apply op_add; lia]. apply V, tree_bin. exists p, r. splits; auto. now apply op_add.
  - intros b c y w _ (g & Dg & V) Dc H. exists (PBin OSub g w). split.
    + replace (a ++ TPlus :: b ++ TMinus :: c) with ((a ++ TPlus :: b) ++ TMinus :: c) by now rewrite <- app_assoc. now apply de_sub.
    + intros val z. rewrite !tree_bin. split.
      * intros (p & q & P & Q & O). apply V, tree_bin in P as (r & s & R & S0 & O'). apply op_add in O'. apply op_sub in O. subst.
        exists r, (s - q)%Z. splits; auto; [|apply op_add; lia]. apply tree_bin. exists s, q. splits; auto. now apply op_sub.
      * intros (p & q & P & Q & O). apply tree_bin in Q as (r & s & R & S0 & O'). apply op_add in O. apply op_sub in O'. subst.
        exists (p + r)%Z, s. splits; auto; [|apply op_sub; lia]. apply V, tree_bin. exists p, r. splits; auto. now apply op_add.
  - intros b y Db H. exists (PBin OAdd x y). split; [|easy]. apply de_add; [now apply de_one|easy].
Qed.
Lemma term_sub t : is_term t -> exists x, d_sub t x.
Proof. intros (val & z & T). apply text_tree in T as (e & D & _). eauto. Qed.
Lemma sub_run a x r : d_sub a x -> no_call r -> exists k, p_sub k (a ++ r) = Some (x, r) /\ forall a' x' r', d_sub a' x' -> no_call r' -> a' ++ r' = a ++ r -> x' = x /\ r' = r.
Proof.
  intros D C. set (k := 2 * length (a ++ r) + 1).
  assert (H : forall a' x' r', d_sub a' x' -> no_call r' -> a' ++ r' = a ++ r -> p_sub k (a ++ r) = Some (x', r')).
  { intros a' x' r' D' C' E. rewrite <- E. unfold k. rewrite <- E. clear k E. apply (proj1 (proj1 (proj2 complete) a' x' D')); [|easy]. rewrite app_length. lia. }
  exists k. split; [now apply (H a)|]. intros a' x' r' D' C' E. pose proof (H a x r D C eq_refl) as E1. specialize (H _ _ _ D' C' E). rewrite E1 in H. now injection H as <- <-.
Qed.
Definition free (body : list token) : Prop :=
  is_term body \/ (exists t r, body = t ++ TPlus :: r /\ is_term t) \/ (exists t u, body = t ++ TMinus :: u /\ is_term t /\ is_term u).
Lemma rest_order val a x b e z : d_sub a x -> d_rest x b e -> clean (a ++ b) -> free (a ++ b) -> tree_value val e z <-> sum_value val (a ++ b) z.
Proof.
  intros D R C F. inversion R as [r y Dr|r y Dr|]; subst.
  - destruct (graft_add _ _ D _ _ Dr) as (g & Dg & V). rewrite <- V. now apply expr_value.
  - destruct (sub_run a x (TMinus :: r) D I) as (k & E & U). destruct F as [T|[(t & r' & Eb & T)|(t & u & Eb & T & Tu)]].
    + apply term_sub in T as (y' & D'). destruct (U _ _ [] D' I) as [_ X]; [now rewrite app_nil_r|discriminate].
    + apply term_sub in T as (y' & D'). destruct (U _ _ (TPlus :: r') D' I) as [_ X]; [easy|discriminate].
    + apply term_sub in T as (y' & D'), Tu as (w & Dw). destruct (U _ _ (TMinus :: u) D' I) as [-> X]; [easy|]. injection X as ->.
      rewrite (expr_unique _ _ _ Dr (de_one _ _ Dw)) in *. apply expr_value; [|easy]. apply de_sub; [now apply de_one|easy].
  - rewrite app_nil_r in *. apply expr_value; [now apply de_one|easy].
Qed.
Lemma capture_value ts c e : d_capture ts c (Some e) -> clean ts -> exists cs eq body, ts = cs ++ eq ++ body /\
  (c = None /\ cs = [] \/ exists v w, c = Some v /\ cs = w ++ [TColon] /\ names w v) /\ (eq = [] \/ eq = [TEquals]) /\
  forall val z, (cs ++ eq <> [] \/ free body) -> tree_value val e z <-> sum_value val body z.
Proof.
  intros D C. inversion D as [|a v b x V K|a v b x V R|a x X|a x B|a l b x L R]; subst.
  - inversion K as [b' x' X|b' x' X]; subst.
    + exists (a ++ [TColon]), [TEquals], b'. splits.
      * now rewrite <- app_assoc.
      * right. exists v, a. splits; auto. now apply names_var.
      * now right.
      * intros val z _. apply expr_value; [easy|]. apply clean_app in C as [_ C]. now do 2 apply clean_cons in C.
    + exists (a ++ [TColon]), [], b. splits.
      * now rewrite <- app_assoc.
      * right. exists v, a. splits; auto. now apply names_var.
      * now left.
      * intros val z _. apply expr_value; [easy|]. apply clean_app in C as [_ C]. now apply clean_cons in C.
  - exists [], [], (a ++ b). splits; auto. intros val z [H|F]; [easy|]. apply (rest_order val a (PVar v)); auto. now apply ds_var.
  - exists [], [TEquals], a. splits; auto. intros val z _. apply expr_value; [easy|]. now apply clean_cons in C.
  - exists [], [], ts. splits; auto. intros val z _. apply expr_value; [|easy]. now apply de_one, ds_builtin.
  - exists [], [], (TLParen :: a ++ TRParen :: b). splits; auto. intros val z [H|F]; [easy|].
    replace (TLParen :: a ++ TRParen :: b) with ((TLParen :: a ++ [TRParen]) ++ b) in * by now rewrite <- app_comm_cons, <- app_assoc.
    apply (rest_order val _ l); auto. now apply ds_paren.
Qed.
Lemma numeric_inv s ts f c e : spelt true true s ts -> block_says (of_string "#" ++ s) (MNumeric f c e) ->
  d_match (TMatchStart :: THash :: ts ++ [TMatchEnd]) (MNumeric f c e).
Proof.
  intros Sp B. remember (of_string "#" ++ s) as t eqn:Et. destruct B as [s' ts' m Sp' D|s' ts' m N Sp' D].
  - apply app_inv_head in Et. subst s'. pose proof (spelt_lex _ _ _ _ Sp (S (length s)) (Nat.lt_succ_diag_r _)) as E.
    pose proof (spelt_lex _ _ _ _ Sp' (S (length s)) (Nat.lt_succ_diag_r _)) as E'. congruence.
  - exfalso. apply N. now exists s.
Qed.
Lemma hash_inv ts f c e : d_match (TMatchStart :: THash :: ts ++ [TMatchEnd]) (MNumeric f c (Some e)) ->
  (f = None /\ d_capture ts c (Some e)) \/ exists fm fs r, f = Some fm /\ ts = fs ++ TComma :: r /\ d_format fs fm /\ d_capture r c (Some e).
Proof.
  intros D. remember (TMatchStart :: THash :: ts ++ [TMatchEnd]) as ws eqn:E. remember (MNumeric f c (Some e)) as m eqn:Em.
  destruct D as [a v V|a v op b x V O R|a v V|a v s V| |fs fm F|a c' e' K|fs fm a c' e' F K]; try discriminate Em.
  - injection Em as <- <- <-. destruct V. discriminate.
  - injection Em as <- <- <-. injection E as E. apply app_inj_tail in E as [-> _]. auto.
  - injection Em as <- <- <-. injection E as E.
    replace (fs ++ TComma :: a ++ [TMatchEnd]) with ((fs ++ TComma :: a) ++ [TMatchEnd]) in E by now rewrite <- app_assoc.
    apply app_inj_tail in E as [<- _]. right. exists fm, fs, a. auto.
Qed.

(** ** C68 *)
(** The value of a numeric block's expression is that of its text, the operators being applied from left
    to right.  Missing for the full claim: a '-' after the first term with more than one term after it,
    in a block without a colon or "==" (see the refutation). *)
Theorem numeric_value_partial s ws f c e : spelt true true s ws -> block_says (of_string "#" ++ s) (MNumeric f c (Some e)) ->
  exists head body, ws = head ++ body /\ before_expr f c head /\
    (in_order head body -> forall val z, tree_value val e z <-> sum_value val body z).
Proof.
  intros Sp B. pose proof (spelt_clean _ _ _ _ Sp) as C. pose proof (numeric_inv _ _ _ _ _ Sp B) as D.
  assert (G : forall fs ts, ws = fs ++ ts -> (f = None /\ fs = [] \/ exists fm w, f = Some fm /\ fs = w ++ [TComma] /\ d_format w fm) -> d_capture ts c (Some e) ->
    exists head body, ws = head ++ body /\ before_expr f c head /\ (in_order head body -> forall val z, tree_value val e z <-> sum_value val body z)).
  { intros fs ts -> Hf K. apply clean_app in C as [_ C]. destruct (capture_value _ _ _ K C) as (cs & eq & body & -> & Hc & He & V).
    exists (fs ++ cs ++ eq), body. splits; [now rewrite <- !app_assoc|now constructor|]. intros O val z. apply V.
    assert (H : cs ++ eq <> [] \/ (cs = [] /\ eq = [])) by (destruct cs, eq; auto; left; discriminate).
    destruct H as [H|[-> ->]]; [now left|]. right. cbn [app] in O. rewrite app_nil_r in O.
    destruct O as [(h & E)|O]; [|exact O]. exfalso.
    assert (L : exists w, fs = w ++ [TComma] \/ fs = []) by (destruct Hf as [[_ ->]|(fm & w & _ & -> & _)]; [exists []; now right|exists w; now left]).
    destruct L as (w & [-> | ->]); destruct E as [E|E]; try (apply app_inj_tail in E as [_ E]; discriminate); destruct h; discriminate. }
  apply hash_inv in D as [[-> K]|(fm & fs & r & -> & -> & F & K)].
  - apply (G [] ws); auto.
  - apply (G (fs ++ [TComma]) r); [now rewrite <- app_assoc| |easy]. right. eauto.
Qed.

(** The evaluator (C47) gives that value. *)
Lemma means_tree env line : forall e ne z, nexpr_of line e = Some ne -> expr_means env ne z -> tree_value (bound env line) e z.
Proof.
  induction e as [n|v|op a IHa b IHb]; intros ne z E M; cbn [nexpr_of] in E.
  - injection E as <-. inversion M; subst. constructor.
  - constructor. destruct v as [x|x|x]; cbn.
    + destruct (str_eqb x (of_string "LINE")) eqn:X; [|discriminate]. injection E as <-. inversion M; subst. apply str_eqb_eq in X. auto.
    + injection E as <-. inversion M; subst. eauto.
    + injection E as <-. inversion M; subst. eauto.
  - destruct (nexpr_of line a) as [x|]; [|discriminate]. destruct (nexpr_of line b) as [y|]; [|discriminate]. injection E as <-.
    inversion M; subst. econstructor; eauto.
Qed.
Theorem numeric_evaluated_partial s ws f c e env line ne explicit fuel n :
  spelt true true s ws -> block_says (of_string "#" ++ s) (MNumeric f c (Some e)) ->
  nexpr_of line e = Some ne -> evaluate_expr fuel env explicit ne = RNum n ->
  exists head body, ws = head ++ body /\ before_expr f c head /\
    (in_order head body -> sum_value (bound env line) body (nvalue n)).
Proof.
  intros Sp B E V. destruct (numeric_value_partial _ _ _ _ _ Sp B) as (head & body & -> & H & O). exists head, body. splits; auto.
  intros I. apply O; auto. apply Num_Props.C47_value in V. now apply means_tree with ne.
Qed.
(** Every expression can be written after a colon. *)
Lemma user_word w : word w -> ~ reserved w -> keyword_or_ident w = TIdent w.
Proof.
  intros W R. unfold keyword_or_ident. unfold reserved in R. cbn [map In] in R.
  repeat match goal with |- context [str_eqb w ?x] => let H := fresh "H" in destruct (str_eqb w x) eqn:H; [apply str_eqb_eq in H; symmetry in H; tauto|] end. reflexivity.
Qed.
Lemma colon_next s : not_next word_char (of_string ":" ++ s).
Proof. intros c r E. assert (X : c = 58%N) by (cbn in E; congruence). subst c. intros [[H|H]|H]; [lia|discriminate|unfold digit in H; lia]. Qed.
Lemma spelt_name_colon w s ts : word w -> ~ reserved w -> spelt true true s ts -> spelt true true (w ++ of_string ":" ++ s) (TIdent w :: TColon :: ts).
Proof.
  intros W R H. rewrite <- (user_word w W R). apply sp_word_of; [easy|apply colon_next|]. apply sp_colon; [easy|exact H].
Qed.
Theorem constraint_accepted w s ws : word w -> ~ reserved w -> spelt true true s ws -> (exists val z, sum_value val ws z) ->
  exists e, block_says (of_string "#" ++ w ++ of_string ":" ++ s) (MNumeric None (Some (User w)) (Some e)) /\
    forall val z, tree_value val e z <-> sum_value val ws z.
Proof.
  intros W R Sp (val & z & V). apply text_tree in V as (e & D & _). exists e. split.
  - apply (bs_numeric _ _ _ (spelt_name_colon w s ws W R Sp)).
    change ((TIdent w :: TColon :: ws) ++ [TMatchEnd]) with (([TIdent w] ++ TColon :: ws) ++ [TMatchEnd]).
    apply dt_num2. apply dk_bind_to; [apply dv_pattern; constructor|now apply dc_expr].
  - intros val' z'. apply expr_value; [easy|]. now apply spelt_clean in Sp.
Qed.

(** [[#X-1+2]] is X-(1+2); [[#5+X]], [[#5]] and [[#add(X,1)+2]] are no blocks; [[min]] is none. *)
Definition block (s : string) : option pmatch :=
  match parse_match (TMatchStart :: block_toks (of_string s) ++ [TMatchEnd]) with
  | Some m => if existsb (fun t => match t with TBad => true | _ => false end) (block_toks (of_string s)) then None else Some m
  | None => None
  end.
Lemma block_spec s m : block s = Some m <-> block_says (of_string s) m.
Proof.
  rewrite block_says_iff. unfold block. set (ts := block_toks (of_string s)).
  assert (E : existsb (fun t => match t with TBad => true | _ => false end) ts = false <-> Forall ok_tok ts).
  { rewrite Forall_forall. split.
    - intros X t I ->. assert (Y : existsb (fun t => match t with TBad => true | _ => false end) ts = true) by (apply existsb_exists; now exists TBad). congruence.
    - intros H. destruct (existsb _ ts) eqn:X; [|easy]. apply existsb_exists in X as (t & I & X). apply H in I. destruct t; try discriminate. now destruct I. }
  destruct (parse_match _) as [m'|]; [|split; [discriminate|intros [_ X]; discriminate]].
  destruct (existsb _ ts) eqn:X; [split; [discriminate|intros [H _]; apply E in H; discriminate]|]. split; [intros [= <-]; split; [now apply E|reflexivity]|]. now intros [_ [= ->]].
Qed.
Definition X_ : pexpr := PVar (User (of_string "X")).
Theorem numeric_left_to_right_refuted :
  block_says (of_string "#X-1+2") (MNumeric None None (Some (PBin OSub X_ (PBin OAdd (PNum 1) (PNum 2))))) /\
  (exists ws, spelt true true (of_string "X-1+2") ws /\ forall val : vname -> Z -> Prop, val (User (of_string "X")) 10%Z -> sum_value val ws 11%Z) /\
  forall val : vname -> Z -> Prop, (forall z, val (User (of_string "X")) z <-> z = 10%Z) -> forall z, tree_value val (PBin OSub X_ (PBin OAdd (PNum 1) (PNum 2))) z <-> z = 7%Z.
Proof.
  splits.
  - now apply block_spec.
  - exists [TIdent (of_string "X"); TMinus; TNum 1; TPlus; TNum 2]. split.
    + exact (lex_spelt 10 true true (of_string "X-1+2") ltac:(cbn; lia) ltac:(cbn; intuition discriminate)).
    + intros val V. apply (sv_sum val [TIdent (of_string "X")] [TMinus; TNum 1; TPlus; TNum 2] 10); [eapply tv_name; [apply na_user|easy]|].
      apply (rv_minus val 10 [TNum 1] 1 [TPlus; TNum 2]); [constructor|]. apply (rv_plus val 9 [TNum 2] 2 []); [constructor|]. apply rv_end.
  - intros val V z. rewrite tree_bin. split.
    + intros (x & y & A & B & O). inversion A as [|? ? H|]; subst. apply V in H as ->. apply tree_bin in B as (u & v & U & W & O'). inversion U; subst. inversion W; subst.
      apply op_add in O' as ->. apply op_sub in O as ->. reflexivity.
    + intros ->. exists 10%Z, 3%Z. splits; [constructor; now apply V| |now apply op_sub]. econstructor; [constructor..|]. constructor.
Qed.
Theorem numeric_refused_refuted :
  (exists ws, spelt true true (of_string "5+X") ws /\ forall val : vname -> Z -> Prop, val (User (of_string "X")) 10%Z -> sum_value val ws 15%Z) /\
  (forall m, ~ block_says (of_string "#5+X") m) /\ (forall m, ~ block_says (of_string "#5") m) /\
  (forall m, ~ block_says (of_string "#add(X,1)+2") m) /\ forall m, ~ block_says (of_string "min") m.
Proof.
  splits; try (intros m H; apply block_spec in H; discriminate).
  exists [TNum 5; TPlus; TIdent (of_string "X")]. split.
  - exact (lex_spelt 10 true true (of_string "5+X") ltac:(cbn; lia) ltac:(cbn; intuition discriminate)).
  - intros val V. apply (sv_sum val [TNum 5] [TPlus; TIdent (of_string "X")] 5); [constructor|].
    apply (rv_plus val 5 [TIdent (of_string "X")] 10 []); [eapply tv_name; [apply na_user|easy]|]. apply rv_end.
Qed.

(** ** Cases *)
Example numeric_case : let s := of_string "%x, ADDR+8-1" in
  exists ws, spelt true true s ws /\
    block_says (of_string "#" ++ s) (MNumeric (Some (Hex 0 false Any)) None
      (Some (PBin OAdd (PVar (User (of_string "ADDR"))) (PBin OSub (PNum 8) (PNum 1))))) /\
    in_order [TPercent; TIdent (of_string "x"); TComma] [TIdent (of_string "ADDR"); TPlus; TNum 8; TMinus; TNum 1] /\
    ws = [TPercent; TIdent (of_string "x"); TComma] ++ [TIdent (of_string "ADDR"); TPlus; TNum 8; TMinus; TNum 1].
Proof.
  cbn zeta. exists ([TPercent; TIdent (of_string "x"); TComma] ++ [TIdent (of_string "ADDR"); TPlus; TNum 8; TMinus; TNum 1]). splits; auto.
  - exact (lex_spelt 20 true true (of_string "%x, ADDR+8-1") ltac:(cbn; lia) ltac:(cbn; intuition discriminate)).
  - now apply (block_spec "#%x, ADDR+8-1").
  - right. right. left. exists [TIdent (of_string "ADDR")], [TNum 8; TMinus; TNum 1]. split; [reflexivity|].
    exists (fun _ _ => True), 0%Z. eapply tv_name; [apply na_user|easy].
Qed.
Example accepted_case : let s := of_string " mul(X, 3) - (Y - 1) + 2" in
  exists ws, spelt true true s ws /\ exists val z, sum_value val ws z.
Proof.
  cbn zeta. exists (lex_block 40 true true (of_string " mul(X, 3) - (Y - 1) + 2")). split.
  - apply lex_spelt; cbn; [lia|intuition discriminate].
  - exists (fun v z => z = 5%Z), 13%Z. cbn.
    apply (sv_sum _ [TMul; TLParen; TIdent (of_string "X"); TComma; TNum 3; TRParen] [TMinus; TLParen; TIdent (of_string "Y"); TMinus; TNum 1; TRParen; TPlus; TNum 2] 15).
    + apply (tv_fun _ TMul OMul [TIdent (of_string "X")] [TNum 3] 5 3 15); [constructor| | |constructor].
      * apply sum_term. eapply tv_name; [apply na_user|easy].
      * apply sum_term. constructor.
    + apply (rv_minus _ 15 [TLParen; TIdent (of_string "Y"); TMinus; TNum 1; TRParen] 4 [TPlus; TNum 2]).
      * apply (tv_paren _ [TIdent (of_string "Y"); TMinus; TNum 1]).
        apply (sv_sum _ [TIdent (of_string "Y")] [TMinus; TNum 1] 5); [eapply tv_name; [apply na_user|easy]|].
        apply (rv_minus _ 5 [TNum 1] 1 []); [constructor|apply rv_end].
      * apply (rv_plus _ 11 [TNum 2] 2 []); [constructor|apply rv_end].
Qed.
Example evaluated_case : let env := fun x : str => if str_eqb x (of_string "X") then Some (VNum (ENum (mkNum None 4))) else None in
  nexpr_of 7 (PBin OAdd X_ (PVar (Pseudo (of_string "LINE")))) = Some (EBin OAdd (EVar (of_string "X")) (ELine 7)) /\
  evaluate_expr 5 env None (EBin OAdd (EVar (of_string "X")) (ELine 7)) = RNum (mkNum None 11) /\
  block "#X+@LINE" = Some (MNumeric None None (Some (PBin OAdd X_ (PVar (Pseudo (of_string "LINE")))))).
Proof. repeat split. Qed.

Print Assumptions numeric_value_partial.
Print Assumptions numeric_evaluated_partial.
Print Assumptions constraint_accepted.
Print Assumptions numeric_left_to_right_refuted.
Print Assumptions numeric_refused_refuted.
