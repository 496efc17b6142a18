(** Numbers that are captured by a pattern with substitutions: what [as_numeric] makes of a text that a number's pattern matched. *)
From Coq Require Import String.
From Verif Require Import Base Text_Model Cursor_Model Check_Model Lit_Model Lit_Spec Env_Model Num_Model Num_Spec Num_Proofs Gram_Model Parse_Model
  Regex_Model Smart_Model Smart_Spec Chain_Spec Chain_Proofs Scan_Spec.
Open Scope string_scope.
Open Scope list_scope.
Open Scope nat_scope.
Ltac splits := repeat match goal with |- _ /\ _ => split end.

Lemma acc_drop r t : (r = 10 \/ r = 16)%Z -> Num_Model.accumulate r false 0 t = Num_Model.accumulate r false 0 (drop_zeros t).
Proof.
  intros R. induction t as [|c t IH]; [reflexivity|]. cbn [drop_zeros]. destruct (N.eqb_spec c 48) as [->|]; [|reflexivity]. rewrite <- IH. cbn [Num_Model.accumulate].
  destruct R as [-> | ->]; reflexivity.
Qed.
Lemma drop_class P t : Forall P t -> Forall P (drop_zeros t).
Proof. induction 1 as [|c t H F IH]; [constructor|]. cbn. destruct (N.eqb c 48); [exact IH|now constructor]. Qed.
Definition solid (c : N) : Prop := is_ws c = false /\ c <> 43%N /\ c <> 45%N.
Lemma solid_radix r t : Forall solid t -> t <> [] -> from_str_radix r t = Num_Model.accumulate r false 0 t.
Proof.
  intros F D. destruct F as [|c t (W & A & B) F]; [easy|]. cbn [from_str_radix].
  apply N.eqb_neq in A, B. rewrite A, B. destruct t; reflexivity.
Qed.
Lemma hex_solid k c : hex_class k c = true -> solid c.
Proof.
  intros H. assert (B : (48 <= c <= 57 \/ 97 <= c <= 102 \/ 65 <= c <= 70)%N).
  { unfold hex_class, lower_hex, upper_hex in H. destruct k; rewrite ?orb_true_iff, ?andb_true_iff, ?N.leb_le in H; lia. }
  assert (D : exists d, to_digit 16 c = Some d).
  { destruct B as [B|[B|B]]; eexists; (apply to_digit_spec; [now right|]); (split; [now constructor|lia]). }
  destruct D as (d & D). split; [exact (digit_solid 16 c d (or_intror eq_refl) D)|lia].
Qed.
Lemma dec_hex c : is_dec c = true -> hex_class Any c = true.
Proof. unfold is_dec, hex_class, lower_hex, upper_hex. intros ->. now rewrite !orb_true_r. Qed.
Lemma dec_solid c : is_dec c = true -> solid c.
Proof. intros H. apply (hex_solid Any). now apply dec_hex. Qed.
Lemma solid_white t : Forall solid t -> forallb (fun c => negb (is_ws c)) t = true.
Proof. induction 1 as [|c t (W & _) F IH]; [reflexivity|]. cbn. now rewrite W, IH. Qed.
Lemma dec_alike ci t s : Forall (fun c => is_dec c = true) t -> Forall2 (alike ci) t s -> s = t.
Proof.
  intros F H. induction H as [|x y t s A H IH]; [reflexivity|]. inversion F as [|? ? D F']; subst. f_equal; [|auto].
  unfold is_dec in D. rewrite andb_true_iff, !N.leb_le in D. destruct A as [->|(_ & u & U & [[-> ->]|[-> ->]])]; [reflexivity|lia|lia].
Qed.
Lemma any_hex c : hex_class Any c = true <-> (48 <= c <= 57 \/ 97 <= c <= 102 \/ 65 <= c <= 70)%N.
Proof. unfold hex_class, lower_hex, upper_hex. rewrite !orb_true_iff, !andb_true_iff, !N.leb_le. lia. Qed.
Lemma hex_alike ci k t s : (ci = true -> k = Any) -> Forall (fun c => hex_class k c = true) t -> Forall2 (alike ci) t s -> Forall (fun c => hex_class k c = true) s /\ List.length s = List.length t.
Proof.
  intros Ck F H. induction H as [|x y t s A H IH]; [split; [constructor|reflexivity]|]. inversion F as [|? ? D F']; subst. destruct (IH F') as [I1 I2]. split; [|cbn; congruence].
  constructor; [|exact I1]. destruct A as [->|(Ci & u & U & A)]; [exact D|]. rewrite (Ck Ci) in *. apply any_hex. apply any_hex in D. destruct A as [[-> ->]|[-> ->]]; lia.
Qed.
Lemma hex_casing k t : Forall (fun c => hex_class k c = true) t -> valid_casing k t = true.
Proof. intros F. destruct k; cbn [valid_casing]; [reflexivity|..]; induction F as [|c t D F IH]; cbn in *; [reflexivity|now rewrite D, IH|reflexivity|now rewrite D, IH]. Qed.
Lemma hex_strip k t : Forall (fun c => hex_class k c = true) t -> strip_0x t = None.
Proof.
  intros F. destruct t as [|a [|c t]]; try reflexivity. cbn. destruct (N.eqb a 48); [|reflexivity]. destruct (N.eqb_spec c 120) as [->|]; [|reflexivity].
  inversion F as [|? ? _ F']; subst. inversion F'; subst. destruct k; discriminate.
Qed.
Lemma num_nat p q : (if Nat.eqb p 0 then 1 else p) <= q -> p <= q /\ 0 < q.
Proof. destruct (Nat.eqb_spec p 0); lia. Qed.
(** the digits after a sign or "0x" *)
Lemma digits_number r t : (r = 10 \/ r = 16)%Z -> Forall solid t -> t <> [] ->
  match drop_zeros t with [] => from_str_radix r t = inl 0%Z | d => from_str_radix r d = from_str_radix r t end.
Proof.
  intros R F D. rewrite (solid_radix r t F D), (acc_drop r t R). destruct (drop_zeros t) as [|c d] eqn:Z; [reflexivity|]. rewrite solid_radix; [reflexivity| |discriminate]. rewrite <- Z. now apply drop_class.
Qed.
Lemma nonneg_number r t z : (r = 10 \/ r = 16)%Z -> Forall solid t -> t <> [] -> from_str_radix r t = inl z -> (0 <= z)%Z.
Proof.
  intros R F D H. rewrite solid_radix in H by assumption. apply accumulate_pos in H as [H _]; auto; [|lia|unfold is_i128; lia]. apply valacc_ge in H; auto. lia.
Qed.
Lemma operand_spec t p signed : Forall solid t -> t <> [] ->
  operand_number t p signed = if (0 <? p) && (p <? List.length t) then None else match from_str_radix 10 t with inl v => Some v | inr _ => None end.
Proof.
  intros F D. unfold operand_number. assert (C : forall v, from_str_radix 10 t = inl v -> (v <? 0)%Z = false) by (intros v H; apply Z.ltb_ge; exact (nonneg_number 10 t v (or_introl eq_refl) F D H)).
  pose proof (digits_number 10 t (or_introl eq_refl) F D) as X. destruct (0 <? p); cbn [andb].
  - destruct (p <? List.length t); [reflexivity|]. destruct (drop_zeros t) as [|c d]; [now rewrite X|]. rewrite X. destruct (from_str_radix 10 t) as [v|]; [|reflexivity]. rewrite (C v eq_refl), andb_false_r. reflexivity.
  - destruct (from_str_radix 10 t) as [v|]; [|reflexivity]. rewrite (C v eq_refl), andb_false_r. reflexivity.
Qed.
Lemma precise p n v : p <= n -> check_precision p n v = POk v.
Proof. intros L. unfold check_precision. destruct (Nat.eqb p 0); [reflexivity|]. destruct (Nat.ltb_spec n p); [lia|reflexivity]. Qed.
Lemma short_test p n : (0 <? p) && (p <? n) = false <-> p = 0 \/ n <= p.
Proof. destruct (Nat.ltb_spec 0 p), (Nat.ltb_spec p n); cbn; split; try discriminate; try reflexivity; lia. Qed.
Lemma strip_prefix s t : strip_0x s = Some t -> s = [48; 120]%N ++ t.
Proof. destruct s as [|a [|c s]]; try discriminate. cbn. destruct (N.eqb_spec a 48) as [->|]; [|discriminate]. destruct (N.eqb_spec c 120) as [->|]; [|discriminate]. now intros [= ->]. Qed.
Lemma solid_sign t : Forall solid t -> starts_with_sign t = false.
Proof. intros F. destruct F as [|c t (_ & A & B) _]; [reflexivity|]. cbn. apply N.eqb_neq in A, B. now rewrite A, B. Qed.
Ltac verdict := split; [intros n; split; [try discriminate|intros (z & P & S0 & ->); try discriminate]|try discriminate].
Lemma number_noted ci f t s : in_lang (format_lang (format_of f)) t -> Forall2 (alike ci) t s -> (ci = true -> uncased (format_of f)) ->
  (forall n, as_numeric (VStr s) f = Val n <-> exists z, parse_with_format s (format_of f) = POk z /\ short_number (format_of f) s /\ n = mkNum f z) /\ as_numeric (VStr s) f <> Panic.
Proof.
  intros (sg & ds & -> & Sg & Cl & Ln) Al Un. unfold as_numeric. fold (format_of f). destruct (format_of f) as [p|p|p x k]; cbn [format_lang sign_ok lprefix dclass lo hi app uncased short_number] in *.
  - destruct Sg as [->|[[=] _]]. cbn [app] in Al. apply dec_alike in Al as ->; [|exact Cl]. destruct (num_nat _ _ (proj1 Ln)) as [L1 L2].
    assert (So : Forall solid ds) by (eapply Forall_impl; [|exact Cl]; intros c; apply dec_solid). assert (D : ds <> []) by (intros ->; cbn in L2; lia).
    rewrite (trim_solid _ (solid_white _ So)), (operand_spec _ _ _ So D). cbn [parse_with_format]. rewrite (solid_sign _ So).
    destruct ((0 <? p) && (p <? List.length ds)) eqn:T.
    + verdict. apply short_test in S0. congruence.
    + destruct (from_str_radix 10 ds) as [v|] eqn:R; verdict.
      * intros [= <-]. exists v. rewrite precise by lia. splits; auto. now apply short_test.
      * rewrite precise in P by lia. now injection P as ->.
  - destruct (num_nat _ _ (proj1 Ln)) as [L1 L2].
    assert (So : Forall solid ds) by (eapply Forall_impl; [|exact Cl]; intros c; apply dec_solid). assert (D : ds <> []) by (intros ->; cbn in L2; lia).
    destruct Sg as [->|(_ & Sg)].
    + cbn [app] in Al. apply dec_alike in Al as ->; [|exact Cl]. rewrite (trim_solid _ (solid_white _ So)), (operand_spec _ _ _ So D). cbn [parse_with_format]. unfold strip_sign. rewrite (solid_sign _ So).
      destruct ((0 <? p) && (p <? List.length ds)) eqn:T.
      * verdict. apply short_test in S0. congruence.
      * destruct (from_str_radix 10 ds) as [v|] eqn:R; verdict.
        -- intros [= <-]. exists v. rewrite precise by lia. splits; auto. now apply short_test.
        -- rewrite precise in P by lia. now injection P as ->.
    + assert (exists c, sg = [c] /\ (c = 43 \/ c = 45)%N) as (c & -> & Sc) by (destruct Sg as [-> | ->]; eauto). cbn [app] in Al. inversion Al as [|? y ? s' A Al']; subst.
      assert (y = c) as -> by (destruct A as [->|(_ & u & U & [[-> ->]|[-> ->]])]; [reflexivity|lia|lia]). apply dec_alike in Al' as ->; [|exact Cl].
      assert (W : forallb (fun c => negb (is_ws c)) (c :: ds) = true) by (cbn [forallb]; rewrite (solid_white _ So); destruct Sc as [-> | ->]; reflexivity).
      rewrite (trim_solid _ W). cbn [parse_with_format]. assert (Ss : strip_sign (c :: ds) = ds) by (destruct Sc as [-> | ->]; reflexivity). rewrite Ss. unfold operand_number.
      cbn [List.length]. destruct (Nat.ltb_spec 0 p) as [Lp|Lp].
      * destruct (Nat.ltb_spec p (S (List.length ds))) as [_|?]; [|lia]. verdict. lia.
      * assert (p = 0) as -> by lia. destruct (from_str_radix 10 (c :: ds)) as [v|] eqn:R; cbn [negb andb]; verdict.
        -- intros [= <-]. exists v. rewrite precise by lia. splits; auto.
        -- rewrite precise in P by lia. now injection P as ->.
  - assert (exists s1 s2, s = s1 ++ s2 /\ Forall2 (alike ci) (if x then [48; 120]%N else []) s1 /\ Forall (fun c => hex_class k c = true) s2 /\ (if Nat.eqb p 0 then 1 else p) <= List.length s2) as (s1 & s2 & -> & A1 & C2 & L).
    { assert (sg = []) as -> by (destruct x; cbn in Sg; destruct Sg as [->|[[=] _]]; reflexivity). assert (Al' : Forall2 (alike ci) ((if x then [48; 120]%N else []) ++ ds) s) by (destruct x; exact Al).
      apply Forall2_app_inv_l in Al' as (s1 & s2 & A1 & A2 & ->). exists s1, s2. assert (Cl' : Forall (fun c => hex_class k c = true) ds) by (destruct x; exact Cl). destruct (hex_alike ci k ds s2 Un Cl' A2) as [C2 L2]. splits; auto. rewrite L2. destruct x; apply Ln. }
    apply num_nat in L as [L1 L2]. assert (So : Forall solid s2) by (eapply Forall_impl; [|exact C2]; intros c; apply hex_solid). assert (D : s2 <> []) by (intros ->; cbn in L2; lia).
    pose proof (digits_number 16 s2 (or_intror eq_refl) So D) as X.
    assert (Core : (forall n, (if p <? List.length s2 then Err else match drop_zeros s2 with [] => Val (mkNum f 0) | d => match from_str_radix 16 d with inl z => Val (mkNum f z) | inr _ => Err end end) = Val n <->
        exists z, match from_str_radix 16 s2 with inr i => PErr (InvalidFormat i) | inl v => if negb (valid_casing k s2) then PErr InvalidCasing else check_precision p (List.length s2) v end = POk z /\ List.length s2 <= p /\ n = mkNum f z) /\
      (if p <? List.length s2 then Err else match drop_zeros s2 with [] => Val (mkNum f 0) | d => match from_str_radix 16 d with inl z => Val (mkNum f z) | inr _ => Err end end) <> Panic).
    { rewrite (hex_casing _ _ C2). cbn [negb]. destruct (Nat.ltb_spec p (List.length s2)) as [Lp|Lp]; [verdict; lia|].
      assert (Y : match drop_zeros s2 with [] => Val (mkNum f 0) | d => match from_str_radix 16 d with inl z => Val (mkNum f z) | inr _ => Err end end = match from_str_radix 16 s2 with inl z => Val (mkNum f z) | inr _ => Err end)
        by (destruct (drop_zeros s2) as [|c0 d0]; now rewrite X). rewrite Y. destruct (from_str_radix 16 s2) as [v|]; verdict.
      - intros [= <-]. exists v. rewrite precise by lia. auto.
      - rewrite precise in P by lia. now injection P as ->. }
    destruct x.
    + assert (s1 = [48; 120]%N \/ s1 = [48; 88]%N) as S1.
      { inversion A1 as [|? y1 ? r1 B1 R1]; subst. inversion R1 as [|? y2 ? r2 B2 R2]; subst. inversion R2; subst.
        destruct B1 as [<-|(_ & u & U & [[? ?]|[? ?]])]; [|lia|lia]. destruct B2 as [<-|(_ & u & U & [[? ?]|[? ?]])]; [now left|lia|]. right. assert (y2 = 88%N) as -> by lia. reflexivity. }
      assert (W : forallb (fun c => negb (is_ws c)) (s1 ++ s2) = true) by (rewrite forallb_app, (solid_white _ So); destruct S1 as [-> | ->]; reflexivity). rewrite (trim_solid _ W). cbn [parse_with_format].
      destruct S1 as [-> | ->].
      * replace (strip_0x ([48; 120]%N ++ s2)) with (Some s2) by reflexivity. destruct Core as [Core Np]. split; [|exact Np]. intros n. rewrite (Core n). cbn [app List.length].
        split; intros (z & P & Sh & Eq); exists z; splits; auto; lia.
      * replace (strip_0x ([48; 88]%N ++ s2)) with (@None str) by reflexivity. verdict.
    + inversion A1; subst. cbn [app]. rewrite (trim_solid _ (solid_white _ So)). cbn [parse_with_format]. rewrite (hex_strip _ _ C2). destruct Core as [Core Np]. split; [|exact Np]. intros n. rewrite (Core n). rewrite Nat.add_0_r. reflexivity.
Qed.
