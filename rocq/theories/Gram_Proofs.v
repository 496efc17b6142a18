(** The executable form of the grammar computes exactly the productions. *)
From Coq Require Import String.
From Verif Require Import Base Num_Model Env_Model Gram_Model.
Open Scope list_scope.
Notation length := List.length.

Scheme d_expr_mut := Minimality for d_expr Sort Prop
with d_sub_mut := Minimality for d_sub Sort Prop
with d_builtin_mut := Minimality for d_builtin Sort Prop
with d_args_mut := Minimality for d_args Sort Prop.
Combined Scheme d_mut from d_expr_mut, d_sub_mut, d_builtin_mut, d_args_mut.

Definition no_call (r : list token) : Prop := match r with TLParen :: _ => False | _ => True end.
Definition no_op (r : list token) : Prop := match r with TPlus :: _ | TMinus :: _ => False | _ => True end.

Lemma chain_stop k x r : no_op r -> p_chain (S k) x r = Some (x, r).
Proof. destruct r as [|[] r]; cbn; easy. Qed.

Lemma var_complete a v r : d_var a v -> p_var (a ++ r) = Some (v, r).
Proof. intros [? ? []|? ? []]; reflexivity. Qed.
Lemma var_sub k a v r : d_var a v -> no_call r -> p_sub (S k) (a ++ r) = Some (PVar v, r).
Proof. intros [? ? []|? ? []] C; try reflexivity. destruct r as [|[] r]; try reflexivity. easy. Qed.
Lemma builtin_sub k t op r : binop_of t = Some op ->
  p_sub (S k) (t :: TLParen :: r) =
  match p_expr k r with
  | Some (x, TComma :: r') =>
      match p_expr k r' with
      | Some (y, TRParen :: r'') => Some (PBin op x y, r'')
      | _ => None
      end
  | _ => None
  end.
Proof. destruct t; cbn; intros [= <-]; reflexivity. Qed.

Definition Pexpr a x := forall k r, 2 * length a + 1 <= k -> no_call r ->
  exists k', k <= k' + length a /\ p_expr k (a ++ r) = p_chain k' x r.
Definition Psub a x := forall k r, 2 * length a <= k -> no_call r -> p_sub k (a ++ r) = Some (x, r).
Definition Pbuiltin a x := 0 < length a /\ Psub a x.
Definition Pargs a l := forall k r, 2 * length a + 2 <= k -> no_call r -> no_op r -> (forall r', r <> TComma :: r') ->
  p_args k (a ++ r) = Some (l, r).

Lemma expr_run a x k r : Pexpr a x -> 2 * length a + 1 <= k -> no_call r -> no_op r -> p_expr k (a ++ r) = Some (x, r).
Proof.
  intros H L C O. destruct (H k r L C) as (k' & L' & E). rewrite E. destruct k' as [|k']; [lia|]. now apply chain_stop.
Qed.

Ltac len := repeat (progress (cbn [List.length] in *; rewrite ?app_length in *)); lia.
Ltac assoc := repeat (progress cbn [app] || rewrite <- app_assoc).

Lemma complete :
  (forall a x, d_expr a x -> Pexpr a x /\ 0 < length a) /\
  (forall a x, d_sub a x -> Psub a x /\ 0 < length a) /\
  (forall a x, d_builtin a x -> Psub a x /\ 0 < length a) /\
  (forall a l, d_args a l -> Pargs a l).
Proof.
  apply d_mut.
  - intros a b x y _ [Ha La] _ [Hb Lb]. split; [|len]. intros k r L C. assoc.
    destruct (Ha k (TPlus :: b ++ r)) as (k' & L' & E); [len|easy|]. rewrite E.
    destruct k' as [|k']; [len|]. exists k'. split; [len|]. cbn [p_chain]. rewrite (Hb k' r); [reflexivity|len|easy].
  - intros a b x y _ [Ha La] _ [Hb Lb]. split; [|len]. intros k r L C. assoc.
    destruct (Ha k (TMinus :: b ++ r)) as (k' & L' & E); [len|easy|]. rewrite E.
    destruct k' as [|k']; [len|]. exists k'. split; [len|]. cbn [p_chain]. rewrite (Hb k' r); [reflexivity|len|easy].
  - intros a x _ [H La]. split; [|easy]. intros k r L C. destruct k as [|k]; [lia|]. exists k. split; [lia|].
    cbn [p_expr]. rewrite (H k r); [reflexivity|lia|easy].
  - intros a x _ H. exact H.
  - intros f a l x _ H F. split; [|len]. intros k r L C. destruct k as [|k]; [len|]. assoc.
    cbn [p_sub]. rewrite (H k (TRParen :: r)); [now rewrite F|len|easy|easy|easy].
  - intros n. split; [|cbn; lia]. intros k r L C. destruct k as [|k]; [cbn in L; lia|]. reflexivity.
  - intros n. split; [|cbn; lia]. intros k r L C. destruct k as [|k]; [cbn in L; lia|]. reflexivity.
  - intros a v H. assert (La : 0 < length a) by (destruct H as [? ? []|? ? []]; cbn; lia).
    split; [|easy]. intros k r L C. destruct k as [|k]; [lia|]. now apply var_sub.
  - intros a x _ [H La]. split; [|len]. intros k r L C. destruct k as [|k]; [len|]. assoc.
    cbn [p_sub]. rewrite (expr_run a x k (TRParen :: r)); [reflexivity|easy|len|easy|easy].
  - intros t op a b x y E _ [Ha La] _ [Hb Lb]. split; [|len]. intros k r L C. destruct k as [|k]; [len|]. assoc.
    rewrite (builtin_sub k t op) by easy.
    rewrite (expr_run a x k (TComma :: b ++ TRParen :: r)); [|easy|len|easy|easy].
    rewrite (expr_run b y k (TRParen :: r)); [reflexivity|easy|len|easy|easy].
  - intros a x _ [H La] k r L C O N. destruct k as [|k]; [lia|]. cbn [p_args].
    rewrite (expr_run a x k r); [|easy|len|easy|easy].
    destruct r as [|[] r]; try reflexivity. now destruct (N r).
  - intros a b x l _ [Ha La] _ Hb k r L C O N. destruct k as [|k]; [len|]. assoc. cbn [p_args].
    rewrite (expr_run a x k (TComma :: b ++ r)); [|easy|len|easy|easy].
    rewrite (Hb k r); [reflexivity|len|easy|easy|easy].
Qed.

Lemma var_sound ts v r : p_var ts = Some (v, r) -> exists a, ts = a ++ r /\ d_var a v.
Proof.
  destruct ts as [|[] [|[] ts]]; cbn; intros [= <- <-];
    try (exists [TIdent s]; split; [reflexivity|apply dv_pattern; constructor]);
    try (exists [TDollar; TIdent s]; split; [reflexivity|apply dv_pattern; constructor]);
    try (exists [TAt; TIdent s]; split; [reflexivity|apply dv_pattern; constructor]);
    exists [TAt; TLine]; split; [reflexivity|apply dv_line_var; constructor].
Qed.

(** the shapes of a sub-expression *)
Lemma sub_inv k ts x r : p_sub (S k) ts = Some (x, r) ->
  (exists n, ts = TNum n :: r /\ x = PNum n) \/
  (exists n, ts = TMinus :: TNum n :: r /\ x = PNum (- n)) \/
  (exists s, ts = TLParen :: s /\ p_expr k s = Some (x, TRParen :: r)) \/
  (exists f s l, ts = TIdent f :: TLParen :: s /\ p_args k s = Some (l, TRParen :: r) /\ from_call f l = Some x) \/
  (exists t op s y z s', ts = t :: TLParen :: s /\ binop_of t = Some op /\
     p_expr k s = Some (y, TComma :: s') /\ p_expr k s' = Some (z, TRParen :: r) /\ x = PBin op y z) \/
  (exists v, p_var ts = Some (v, r) /\ x = PVar v).
Proof.
  intros H.
  assert (V : match p_var ts with Some (v, r) => Some (PVar v, r) | None => None end = Some (x, r) ->
              exists v, p_var ts = Some (v, r) /\ x = PVar v).
  { destruct (p_var ts) as [[v r']|]; [|easy]. intros [= <- <-]. eauto. }
  destruct ts as [|t ts]; [discriminate H|].
  destruct t; try (destruct ts as [|[] ts]; cbn in H; (discriminate || (right; right; right; right; right; now apply V)));
    try (injection H as <- <-; now eauto).
  all: try (destruct ts as [|[] ts]; cbn in H; try discriminate;
    try (injection H as <- <-; eauto);
    try (right; right; right; right; right; now apply V);
    do 4 right; left;
    destruct (p_expr k ts) as [[y [|[] s']]|] eqn:E; try discriminate;
    destruct (p_expr k s') as [[z [|[] s'']]|] eqn:E'; try discriminate;
    injection H as <- <-; do 6 eexists; (split; [reflexivity|]); (split; [reflexivity|]); now eauto).
  - destruct ts as [|[] ts]; try (right; right; right; right; right; now apply V).
    right. right. right. left. cbn in H. destruct (p_args k ts) as [[l [|[] s']]|] eqn:E; try discriminate.
    destruct (from_call s l) eqn:F; [|discriminate]. injection H as <- <-. eauto 8.
  - right. right. left. cbn in H. destruct (p_expr k ts) as [[y [|[] s']]|] eqn:E; try discriminate.
    injection H as <- <-. eauto.
Qed.

Lemma sound k :
  (forall ts x r, p_expr k ts = Some (x, r) -> exists a, ts = a ++ r /\ d_expr a x) /\
  (forall a0 x0 ts x r, d_expr a0 x0 -> p_chain k x0 ts = Some (x, r) -> exists a, ts = a ++ r /\ d_expr (a0 ++ a) x) /\
  (forall ts x r, p_sub k ts = Some (x, r) -> exists a, ts = a ++ r /\ d_sub a x) /\
  (forall ts l r, p_args k ts = Some (l, r) -> exists a, ts = a ++ r /\ d_args a l).
Proof.
  induction k as [|k (IE & IC & IS & IA)]; [repeat split; cbn; discriminate|]. repeat split.
  - intros ts x r H. cbn [p_expr] in H. destruct (p_sub k ts) as [[y r0]|] eqn:E; [|discriminate].
    apply IS in E as (a & -> & D). destruct (IC a y r0 x r) as (b & -> & D'); [now apply de_one|easy|].
    exists (a ++ b). now rewrite <- app_assoc.
  - intros a0 x0 ts x r D H. cbn [p_chain] in H.
    assert (N : Some (x0, ts) = Some (x, r) -> exists a, ts = a ++ r /\ d_expr (a0 ++ a) x).
    { intros [= <- <-]. exists []. now rewrite app_nil_r. }
    destruct ts as [|[] ts]; auto.
    + destruct (p_sub k ts) as [[y r0]|] eqn:E; [|discriminate]. apply IS in E as (a & -> & D').
      destruct (IC (a0 ++ TPlus :: a) (PBin OAdd x0 y) r0 x r) as (b & -> & D2); [now apply de_add|easy|].
      exists (TPlus :: a ++ b). split; [cbn; now rewrite <- app_assoc|]. now rewrite <- app_assoc in D2.
    + destruct (p_sub k ts) as [[y r0]|] eqn:E; [|discriminate]. apply IS in E as (a & -> & D').
      destruct (IC (a0 ++ TMinus :: a) (PBin OSub x0 y) r0 x r) as (b & -> & D2); [now apply de_sub|easy|].
      exists (TMinus :: a ++ b). split; [cbn; now rewrite <- app_assoc|]. now rewrite <- app_assoc in D2.
  - intros ts x r H. apply sub_inv in H as [(n & -> & ->)|[(n & -> & ->)|[(s & -> & E)|[(f & s & l & -> & E & F)|[(t & op & s & y & z & s' & -> & B & E & E' & ->)|(v & E & ->)]]]]].
    + exists [TNum n]. split; [easy|apply ds_num].
    + exists [TMinus; TNum n]. split; [easy|apply ds_neg].
    + apply IE in E as (a & -> & D). exists (TLParen :: a ++ [TRParen]). split; [now assoc|now apply ds_paren].
    + apply IA in E as (a & -> & D). exists (TIdent f :: TLParen :: a ++ [TRParen]). split; [now assoc|now apply (ds_call f a l)].
    + apply IE in E as (a & -> & D). apply IE in E' as (b & -> & D').
      exists (t :: TLParen :: a ++ TComma :: b ++ [TRParen]). split; [now assoc|]. apply ds_builtin. now constructor.
    + apply var_sound in E as (a & -> & D). exists a. split; [easy|now apply ds_var].
  - intros ts l r H. cbn [p_args] in H. destruct (p_expr k ts) as [[x r0]|] eqn:E; [|discriminate].
    apply IE in E as (a & -> & D).
    assert (N : Some ([x], r0) = Some (l, r) -> exists b, a ++ r0 = b ++ r /\ d_args b l).
    { intros [= <- <-]. exists a. split; [easy|now constructor]. }
    destruct r0 as [|[] r0]; auto.
    destruct (p_args k r0) as [[l' r']|] eqn:E'; [|discriminate]. injection H as <- <-.
    apply IA in E' as (b & -> & D'). exists (a ++ TComma :: b). split; [now assoc|now apply da_more].
Qed.

Lemma full_spec ts x : p_full ts = Some x <-> d_expr ts x.
Proof.
  unfold p_full. split.
  - destruct (p_expr _ ts) as [[y [|]]|] eqn:E; try discriminate. intros [= <-].
    apply (sound _) in E as (a & -> & D). now rewrite app_nil_r.
  - intros D. destruct complete as [C _]. destruct (C ts x D) as [H _].
    pose proof (expr_run ts x (2 * length ts + 1) [] H (le_n _) I I) as E. rewrite app_nil_r in E. now rewrite E.
Qed.
Lemma rest_spec l ts x : p_rest l ts = Some x <-> d_rest l ts x.
Proof.
  split.
  - destruct ts as [|[] ts]; cbn; try discriminate.
    + intros [= <-]. constructor.
    + destruct (p_full ts) eqn:E; cbn; [|discriminate]. intros [= <-]. constructor. now apply full_spec.
    + destruct (p_full ts) eqn:E; cbn; [|discriminate]. intros [= <-]. constructor. now apply full_spec.
  - intros [a y D|a y D|]; cbn; [| |reflexivity]; apply full_spec in D; now rewrite D.
Qed.
Lemma expr_head a x : d_expr a x -> exists t r, a = t :: r /\ t <> TEquals /\ t <> TColon.
Proof.
  revert a x. apply (d_expr_mut (fun a _ => exists t r, a = t :: r /\ t <> TEquals /\ t <> TColon)
    (fun a _ => exists t r, a = t :: r /\ t <> TEquals /\ t <> TColon)
    (fun a _ => exists t r, a = t :: r /\ t <> TEquals /\ t <> TColon) (fun _ _ => True)); auto; intros.
  - destruct H0 as (t & r & -> & ? & ?). cbn. eauto.
  - destruct H0 as (t & r & -> & ? & ?). cbn. eauto.
  - eexists _, _. now repeat split.
  - eexists _, _. now repeat split.
  - eexists _, _. now repeat split.
  - destruct H as [? ? []|? ? []]; eexists _, _; now repeat split.
  - eexists _, _. now repeat split.
  - exists t, (TLParen :: a ++ TComma :: b ++ [TRParen]). split; [easy|]. split; intros ->; discriminate.
Qed.
Lemma constraint_spec ts x : p_constraint ts = Some x <-> d_constraint ts x.
Proof.
  split.
  - intros H. assert (C : p_full ts = Some x \/ exists r, ts = TEquals :: r /\ p_full r = Some x).
    { destruct ts as [|[] ts]; cbn in H; eauto. }
    destruct C as [C|(r & -> & C)]; apply full_spec in C; now constructor.
  - intros [a y D|a y D].
    + now apply full_spec.
    + destruct (expr_head a y D) as (t & r & -> & N & _). apply full_spec in D. destruct t; try easy.
Qed.

Lemma builtin_full ts x : (exists t r, ts = t :: r /\ exists op, binop_of t = Some op) ->
  (p_sub (2 * length ts) ts = Some (x, []) <-> d_builtin ts x).
Proof.
  intros (t & r & -> & op & B). split.
  - intros H. apply (sound _) in H as (a & E & D). rewrite app_nil_r in E. subst a.
    inversion D as [a y Db E|f a l y Da F E|n|n E|a v Dv E|a y De E]; subst; try easy; try (now destruct t).
    inversion Dv as [? ? Dv'|? ? Dv']; subst; inversion Dv'; subst; discriminate.
  - intros D. destruct complete as (_ & _ & C & _). destruct (C _ _ D) as [H _].
    pose proof (H (2 * length (t :: r)) [] (le_n _) I) as E. now rewrite app_nil_r in E.
Qed.

Lemma capture_spec ts c e : p_capture ts = Some (c, e) <-> d_capture ts c e.
Proof.
  split.
  - intros H.
    assert (V : match p_var ts with
      | Some (v, [TColon]) => Some (Some v, None)
      | Some (v, TColon :: r) => option_map (fun x => (Some v, Some x)) (p_constraint r)
      | Some (v, r) => option_map (fun x => (None, Some x)) (p_rest (PVar v) r)
      | None => None
      end = Some (c, e) -> d_capture ts c e).
    { clear H. destruct (p_var ts) as [[v r]|] eqn:E; [|discriminate]. apply var_sound in E as (a & -> & D).
      assert (R : option_map (fun x => (None, Some x)) (p_rest (PVar v) r) = Some (c, e) -> d_capture (a ++ r) c e).
      { destruct (p_rest (PVar v) r) eqn:E; [|discriminate]. intros [= <- <-]. apply (dk_var a v); [easy|]. now apply rest_spec. }
      destruct r as [|[] r]; try exact R. destruct r as [|t r].
      - intros [= <- <-]. now apply dk_bind.
      - destruct (p_constraint (t :: r)) eqn:E; [|discriminate]. intros [= <- <-].
        apply dk_bind_to; [easy|]. now apply constraint_spec. }
    assert (B : (exists t r, ts = t :: r /\ exists op, binop_of t = Some op) ->
      match p_sub (2 * length ts) ts with Some (x, []) => Some (None, Some x) | _ => None end = Some (c, e) -> d_capture ts c e).
    { intros X. destruct (p_sub (2 * length ts) ts) as [[x [|]]|] eqn:E; try discriminate. intros [= <- <-].
      apply dk_builtin. now apply builtin_full. }
    destruct ts as [|[] ts]; try (apply V; exact H); try (apply B; [eexists _, _; split; [reflexivity|]; eexists; reflexivity|exact H]).
    + cbn [p_capture] in H. destruct (p_expr (2 * length (TLParen :: ts) + 1) ts) as [[x [|[] r']]|] eqn:E; try discriminate.
      apply (sound _) in E as (a & -> & D). destruct (p_rest x r') eqn:R; [|discriminate]. injection H as <- <-.
      apply (dk_paren a x); [easy|]. now apply rest_spec.
    + cbn in H. destruct (p_full ts) eqn:E; [|discriminate]. injection H as <- <-. apply dk_eq. now apply full_spec.
  - intros [a v D|a v b x D C|a v b x D R|a x D|a x D|a l b x D R].
    + pose proof (var_complete _ _ [TColon] D) as E. destruct D as [? ? []|? ? []]; cbn in *; reflexivity.
    + assert (N : exists t r, b = t :: r).
      { destruct C as [? ? C|? ? C]; [eauto|]. destruct (expr_head _ _ C) as (t & r & -> & _). eauto. }
      destruct N as (t & r & ->). apply constraint_spec in C.
      destruct D as [? ? []|? ? []]; cbn -[p_constraint]; rewrite C; reflexivity.
    + apply rest_spec in R. assert (N : forall r, b <> TColon :: r) by (intros r ->; discriminate).
      destruct D as [? ? []|? ? []]; destruct b as [|[] b]; try discriminate R; cbn -[p_rest of_string]; try (rewrite R; reflexivity); try (cbn in R; injection R as <-; reflexivity).
    + apply full_spec in D. cbn. now rewrite D.
    + assert (X : exists t r, a = t :: r /\ exists op, binop_of t = Some op) by (destruct D; eauto 6).
      apply (builtin_full a x X) in D. destruct X as (t & r & -> & op & B).
      destruct t; try discriminate B; unfold p_capture; now rewrite D.
    + apply rest_spec in R. destruct complete as [C _]. destruct (C a l D) as [H _]. cbn [p_capture].
      rewrite (expr_run a l _ (TRParen :: b)); [now rewrite R|easy| |easy|easy].
      cbn [List.length]. rewrite app_length. cbn [List.length]. lia.
Qed.

Lemma precision_complete a p r : d_precision a p -> (forall q, r <> TDot :: q) -> p_precision (a ++ r) = Some (p, r).
Proof.
  intros [|n L] N; cbn.
  - destruct r as [|[] r]; try reflexivity. now destruct (N r).
  - now rewrite (proj2 (Z.leb_le 0 n)), (proj2 (Z.leb_le n 255)) by lia.
Qed.
Lemma precision_sound ts p r : p_precision ts = Some (p, r) -> exists a, ts = a ++ r /\ d_precision a p.
Proof.
  destruct ts as [|[] ts]; cbn; try (intros [= <- <-]; exists []; split; [reflexivity|constructor]).
  destruct ts as [|[] ts]; cbn; try discriminate. destruct ((0 <=? n) && (n <=? 255))%Z eqn:E; [|discriminate].
  intros [= <- <-]. apply andb_true_iff in E as [E1 E2]. apply Z.leb_le in E1, E2.
  exists [TDot; TNum n]. split; [easy|constructor; lia].
Qed.
Lemma prec_head a p t r : d_precision a p -> a = t :: r -> t = TDot.
Proof. intros [|] [= <- <-]; easy. Qed.
Lemma format_run h b a p r : d_prefix h b -> d_precision a p ->
  (forall q, r <> TDot :: q) -> (forall q, r <> THash :: q) ->
  p_format (h ++ a ++ r) =
  match r with
  | TIdent s :: r' =>
      if str_eqb s (of_string "u") then if b then None else Some (Unsigned p, r')
      else if str_eqb s (of_string "d") then if b then None else Some (Signed p, r')
      else if str_eqb s (of_string "x") then Some (Hex p b Any, r')
      else if str_eqb s (of_string "X") then Some (Hex p b Upper, r')
      else None
  | _ => if b then None else Some (Unsigned p, r)
  end.
Proof.
  intros Hp P X Y. unfold p_format.
  assert (H : match h ++ a ++ r with THash :: r0 => (true, r0) | _ => (false, h ++ a ++ r) end = (b, a ++ r)).
  { destruct Hp; [|reflexivity]. cbn [app]. destruct P; cbn [app]; [|reflexivity]. destruct r as [|[] r]; try reflexivity. now destruct (Y r). }
  rewrite H, (precision_complete _ _ _ P X). reflexivity.
Qed.
Lemma format_complete a f r : d_format (TPercent :: a) f -> p_format (a ++ TComma :: r) = Some (f, TComma :: r).
Proof.
  intros D. inversion D as [a' p s P C E|a' p P E|h a' p b Hp P E|h a' p b Hp P E]; subst; clear D; rewrite <- !app_assoc.
  - destruct C as [->| ->].
    + exact (format_run [] false a' p (TComma :: r) dx_none P ltac:(easy) ltac:(easy)).
    + exact (format_run [] false a' p (TIdent (of_string "u") :: TComma :: r) dx_none P ltac:(easy) ltac:(easy)).
  - exact (format_run [] false a' p (TIdent (of_string "d") :: TComma :: r) dx_none P ltac:(easy) ltac:(easy)).
  - rewrite (format_run h b a' p); [reflexivity|exact Hp|exact P|easy|easy].
  - rewrite (format_run h b a' p); [reflexivity|exact Hp|exact P|easy|easy].
Qed.
Lemma format_sound ts f r : p_format ts = Some (f, r) -> exists a, ts = a ++ r /\ d_format (TPercent :: a) f.
Proof.
  unfold p_format. intros H.
  assert (X : exists h b s, ts = h ++ s /\ d_prefix h b /\
    match ts with THash :: r => (true, r) | _ => (false, ts) end = (b, s)).
  { destruct ts as [|[] ts]; try (eexists [], false, _; split; [reflexivity|split; [constructor|reflexivity]]).
    exists [THash], true, ts. split; [reflexivity|split; [constructor|reflexivity]]. }
  destruct X as (h & b & s & -> & Hp & E). rewrite E in H. clear E.
  destruct (p_precision s) as [[p s']|] eqn:E; [|discriminate]. apply precision_sound in E as (a & -> & P).
  assert (U : (if b then None else Some (Unsigned p, s')) = Some (f, r) ->
    exists a0, h ++ a ++ s' = a0 ++ r /\ d_format (TPercent :: a0) f).
  { destruct Hp; [|discriminate]. intros [= <- <-]. exists a. split; [easy|].
    rewrite <- (app_nil_r a). constructor; auto. }
  destruct s' as [|[] s']; try exact (U H).
  destruct (str_eqb s (of_string "u")) eqn:Eu.
  { apply str_eqb_eq in Eu as ->. destruct Hp; [|discriminate]. injection H as <- <-.
    exists (a ++ [TIdent (of_string "u")]). split; [cbn; now rewrite <- app_assoc|]. constructor; auto. }
  destruct (str_eqb s (of_string "d")) eqn:Ed.
  { apply str_eqb_eq in Ed as ->. destruct Hp; [|discriminate]. injection H as <- <-.
    exists (a ++ [TIdent (of_string "d")]). split; [cbn; now rewrite <- app_assoc|]. now constructor. }
  destruct (str_eqb s (of_string "x")) eqn:Ex.
  { apply str_eqb_eq in Ex as ->. injection H as <- <-. exists (h ++ a ++ [TIdent (of_string "x")]).
    split; [now assoc|]. now constructor. }
  destruct (str_eqb s (of_string "X")) eqn:EX; [|discriminate].
  apply str_eqb_eq in EX as ->. injection H as <- <-. exists (h ++ a ++ [TIdent (of_string "X")]).
  split; [now assoc|]. now constructor.
Qed.

(** [d_match] without the brackets *)
Inductive d_body : list token -> pmatch -> Prop :=
| by_line a v : d_line_var a v -> d_body a (MSubst v None)
| by_line_expr a v op b x : d_line_var a v -> (op = TPlus \/ op = TMinus) -> d_rest (PVar v) (op :: b) x ->
    d_body (a ++ op :: b) (MNumeric None None (Some x))
| by_var a v : d_pattern_var a v -> d_body a (MSubst v None)
| by_capture a v s : d_maybe_global a v -> d_body (a ++ [TColon; TRaw s]) (MSubst v (Some s))
| by_num0 : d_body [THash] (MNumeric None None None)
| by_num1 f fm : d_format f fm -> d_body (THash :: f ++ [TComma]) (MNumeric (Some fm) None None)
| by_num2 a c e : d_capture a c e -> d_body (THash :: a) (MNumeric None c e)
| by_num3 f fm a c e : d_format f fm -> d_capture a c e -> d_body (THash :: f ++ TComma :: a) (MNumeric (Some fm) c e).

Lemma match_body ts m : d_match ts m <-> exists b, ts = TMatchStart :: b ++ [TMatchEnd] /\ d_body b m.
Proof.
  split.
  - intros []; eexists; (split; [|econstructor; eassumption]); now assoc.
  - intros (b & -> & D). destruct D; assoc; econstructor; eassumption.
Qed.
Lemma capture_not_percent r c e : d_capture (TPercent :: r) c e -> False.
Proof. intros D. apply capture_spec in D. discriminate. Qed.
Lemma capture_nonempty c e : d_capture [] c e -> False.
Proof. intros D. apply capture_spec in D. discriminate. Qed.
Lemma numeric_spec f ts m : p_numeric f ts = Some m <->
  (ts = [] /\ m = MNumeric f None None) \/ exists c e, d_capture ts c e /\ m = MNumeric f c e.
Proof.
  split.
  - destruct ts as [|t ts]; cbn [p_numeric].
    + intros [= <-]. auto.
    + destruct (p_capture (t :: ts)) as [[c e]|] eqn:E; [|discriminate]. intros [= <-]. right. exists c, e. split; [|easy]. now apply capture_spec.
  - intros [[-> ->]|(c & e & D & ->)]; [reflexivity|]. destruct ts as [|t ts]; [now apply capture_nonempty in D|].
    apply capture_spec in D. cbn [p_numeric]. now rewrite D.
Qed.
Lemma format_head f fm : d_format f fm -> exists g, f = TPercent :: g.
Proof. intros []; eauto. Qed.
Lemma body_complete ts m : d_body ts m -> p_body ts = Some m.
Proof.
  intros [a v D|a v op b x D O R|a v D|a v s D| |f fm D|a c e D|f fm a c e D D'].
  - destruct D. reflexivity.
  - destruct D. apply rest_spec in R. change (p_body ([TAt; TLine] ++ op :: b)) with (option_map (fun x => MNumeric None None (Some x)) (p_rest (PVar (Pseudo (of_string "LINE"))) (op :: b))).
    now rewrite R.
  - destruct D; reflexivity.
  - destruct D; reflexivity.
  - reflexivity.
  - destruct (format_head _ _ D) as (g & ->). cbn [app p_body]. now rewrite (format_complete _ fm).
  - assert (N : forall r, a <> TPercent :: r) by (intros r ->; now apply capture_not_percent in D).
    assert (E : p_body (THash :: a) = p_numeric None a).
    { destruct a as [|[] a]; try reflexivity. now destruct (N a). }
    rewrite E. apply numeric_spec. right. eauto.
  - assert (E : forall r, p_body (THash :: f ++ TComma :: r) = p_numeric (Some fm) r).
    { intros r. destruct (format_head _ _ D) as (g & ->). cbn [app p_body]. now rewrite (format_complete _ fm). }
    rewrite E. apply numeric_spec. right. eauto.
Qed.
Lemma body_sound ts m : p_body ts = Some m -> d_body ts m.
Proof.
  intros H.
  destruct ts as [|t ts]; [discriminate|].
  destruct t; try discriminate.
  - (* identifier *)
    destruct ts as [|[] ts]; try discriminate.
    + injection H as <-. apply by_var. constructor.
    + destruct ts as [|[] [|]]; try discriminate. injection H as <-. apply (by_capture [TIdent s]). constructor.
  - (* # *)
    assert (N : p_numeric None ts = Some m -> d_body (THash :: ts) m).
    { intros E. apply numeric_spec in E as [[-> ->]|(c & e & D & ->)]; [constructor|now apply by_num2]. }
    destruct ts as [|[] ts]; try exact (N H).
    cbn [p_body] in H. destruct (p_format ts) as [[f r]|] eqn:E; [|discriminate].
    apply format_sound in E as (a & -> & D). destruct r as [|[] r]; try discriminate.
    apply numeric_spec in H as [[-> ->]|(c & e & D' & ->)].
    + exact (by_num1 _ _ D).
    + exact (by_num3 _ _ _ _ _ D D').
  - (* $ *)
    destruct ts as [|[] ts]; try discriminate.
    destruct ts as [|[] ts]; try discriminate.
    + injection H as <-. apply by_var. constructor.
    + destruct ts as [|[] [|]]; try discriminate. injection H as <-. apply (by_capture [TDollar; TIdent s]). constructor.
  - (* @ *)
    destruct ts as [|[] ts]; try discriminate.
    + destruct ts; [|discriminate]. injection H as <-. apply by_var. constructor.
    + destruct ts as [|t ts]; [injection H as <-; apply by_line; constructor|].
      cbn [p_body] in H. destruct (p_rest (PVar (Pseudo (of_string "LINE"))) (t :: ts)) eqn:E; [|discriminate]. injection H as <-.
      apply rest_spec in E.
      apply (by_line_expr [TAt; TLine] (Pseudo (of_string "LINE"))); [constructor| |easy]. inversion E; auto.
Qed.
(** The parser computes the grammar; a block has at most one reading. *)
Lemma match_spec ts m : parse_match ts = Some m <-> d_match ts m.
Proof.
  rewrite match_body. unfold parse_match. split.
  - destruct ts as [|[] ts]; try discriminate. destruct (rev ts) as [|[] b] eqn:E; try discriminate.
    intros H. exists (rev b). split; [|now apply body_sound].
    rewrite <- (rev_involutive ts), E. reflexivity.
  - intros (b & -> & D). rewrite rev_unit, rev_involutive. now apply body_complete.
Qed.
Lemma match_unique ts m m' : d_match ts m -> d_match ts m' -> m = m'.
Proof. rewrite <- !match_spec. congruence. Qed.
Lemma expr_unique ts x y : d_expr ts x -> d_expr ts y -> x = y.
Proof. rewrite <- !full_spec. congruence. Qed.
