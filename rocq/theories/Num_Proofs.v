(** Proofs about numbers and numeric expressions. *)
From Verif Require Import Base Num_Model Num_Spec.
From Coq Require Import String Zquot.
Local Open Scope Z_scope.

Ltac splits := repeat match goal with |- _ /\ _ => split end.

Lemma i128_bounds : i128_max = 2 ^ 127 - 1 /\ i128_min = - 2 ^ 127.
Proof. split; reflexivity. Qed.
Lemma in_i128_spec v : in_i128 v = true <-> is_i128 v.
Proof. unfold in_i128, is_i128. destruct i128_bounds as [-> ->].
  rewrite andb_true_iff, !Z.leb_le. lia. Qed.
Lemma in_i128_false v : in_i128 v = false <-> ~ is_i128 v.
Proof. rewrite <- in_i128_spec. destruct (in_i128 v); intuition congruence. Qed.
Global Opaque in_i128.

(** ** Digits *)
Lemma digit_is_fun c d d' : digit_is c d -> digit_is c d' -> d = d'.
Proof. intros [] K; inversion K; subst; lia. Qed.
Lemma digit_is_nonneg c d : digit_is c d -> 0 <= d < 16.
Proof. intros []; lia. Qed.

Lemma to_digit_spec_gen base c d : 2 <= base <= 16 ->
  (to_digit base c = Some d <-> digit_is c d /\ d < base).
Proof.
  intros Hb. unfold to_digit. cbv zeta. split.
  - intros H.
    destruct (Z.leb_spec 48 (Z.of_N c)), (Z.leb_spec (Z.of_N c) 57); cbn [andb] in H;
    try (destruct (Z.ltb_spec (Z.of_N c - 48) base); inversion H; subst; split; [constructor; lia|lia]);
    destruct (Z.leb_spec 97 (Z.of_N c)), (Z.leb_spec (Z.of_N c) 122); cbn [andb] in H; try lia;
    try (destruct (Z.ltb_spec (Z.of_N c - 97 + 10) base); inversion H; subst;
         replace (Z.of_N c - 97 + 10) with (Z.of_N c - 87) by lia; split; [constructor; lia|lia]);
    destruct (Z.leb_spec 65 (Z.of_N c)), (Z.leb_spec (Z.of_N c) 90); cbn [andb] in H; try lia;
    try (rewrite Z.ltb_irrefl in H; discriminate H);
    (destruct (Z.ltb_spec (Z.of_N c - 65 + 10) base); inversion H; subst;
         replace (Z.of_N c - 65 + 10) with (Z.of_N c - 55) by lia; split; [constructor; lia|lia]).
  - intros [H L]. inversion H; subst;
    repeat match goal with |- context [?a <=? ?b] => destruct (Z.leb_spec a b); try lia end; cbn [andb];
    match goal with |- context [?a <? ?b] => destruct (Z.ltb_spec a b); try lia end; f_equal; lia.
Qed.
Lemma to_digit_spec base c d : base = 10 \/ base = 16 ->
  (to_digit base c = Some d <-> digit_is c d /\ d < base).
Proof. intros [->| ->]; apply to_digit_spec_gen; lia. Qed.

(** ** Values of texts *)
Fixpoint valacc (base acc : Z) (s : str) : option Z :=
  match s with
  | [] => Some acc
  | c :: r => match to_digit base c with Some d => valacc base (acc * base + d) r | None => None end
  end.
Lemma valacc_app base acc s t :
  valacc base acc (s ++ t) = match valacc base acc s with Some a => valacc base a t | None => None end.
Proof. revert acc; induction s as [|c s IH]; intros; cbn; auto. destruct (to_digit base c); auto. Qed.
Lemma valacc_value_gen base s v : 2 <= base <= 16 -> (valacc base 0 s = Some v <-> value_is base s v).
Proof.
  intros Hb. revert v. induction s as [|c s IH] using rev_ind; intros v; split; intros H.
  - inversion H. constructor.
  - inversion H; auto. now destruct s.
  - rewrite valacc_app in H. destruct (valacc base 0 s) eqn:E; [|discriminate].
    cbn in H. destruct (to_digit base c) eqn:D; [|discriminate]. inversion H; subst.
    apply to_digit_spec_gen in D as [D1 D2]; auto. constructor; auto. now apply IH.
  - inversion H. { now destruct s. }
    apply app_inj_tail in H0 as [<- <-]. rewrite valacc_app. apply IH in H1. rewrite H1. cbn.
    assert (D : to_digit base c0 = Some d) by (apply to_digit_spec_gen; auto). now rewrite D.
Qed.
Lemma valacc_value base s v : base = 10 \/ base = 16 -> (valacc base 0 s = Some v <-> value_is base s v).
Proof. intros [->| ->]; apply valacc_value_gen; lia. Qed.
Lemma valacc_ge_gen base acc s v : 2 <= base <= 16 -> 0 <= acc -> valacc base acc s = Some v -> acc <= v.
Proof.
  intros Hb. revert acc; induction s as [|c s IH]; cbn; intros acc Ha H. { inversion H; lia. }
  destruct (to_digit base c) eqn:D; [|discriminate].
  apply to_digit_spec_gen in D as [D1 D2]; auto. apply digit_is_nonneg in D1.
  apply IH in H; nia.
Qed.
Lemma valacc_ge base acc s v : base = 10 \/ base = 16 -> 0 <= acc -> valacc base acc s = Some v -> acc <= v.
Proof. intros [->| ->]; apply valacc_ge_gen; lia. Qed.
Lemma value_is_fun base s v v' : base = 10 \/ base = 16 -> value_is base s v -> value_is base s v' -> v = v'.
Proof. intros Hb H1 H2. apply valacc_value in H1, H2; auto. congruence. Qed.
Lemma value_is_nonneg base s v : base = 10 \/ base = 16 -> value_is base s v -> 0 <= v.
Proof. intros Hb H. apply valacc_value in H; auto. apply valacc_ge in H; lia. Qed.

(** [accumulate] computes the value or reports why there is none. *)
Lemma accumulate_pos_gen base acc s v : 2 <= base <= 16 -> 0 <= acc -> is_i128 acc ->
  (accumulate base false acc s = inl v <-> valacc base acc s = Some v /\ is_i128 v).
Proof.
  intros Hb. revert acc; induction s as [|c s IH]; cbn; intros acc Ha Hi. { intuition congruence. }
  destruct (to_digit base c) eqn:D; [|intuition discriminate].
  apply to_digit_spec_gen in D as [D1 D2]; auto. apply digit_is_nonneg in D1.
  destruct (in_i128 (acc * base)) eqn:E1; [destruct (in_i128 (acc * base + z)) eqn:E2|].
  - rewrite IH; try nia; [reflexivity|now apply in_i128_spec].
  - split; [discriminate|]. intros [V I]. apply valacc_ge_gen in V; try nia.
    apply in_i128_false in E2. exfalso; apply E2. unfold is_i128 in *. nia.
  - split; [discriminate|]. intros [V I]. apply valacc_ge_gen in V; try nia.
    apply in_i128_false in E1. exfalso; apply E1. unfold is_i128 in *. nia.
Qed.
Lemma accumulate_pos base acc s v : base = 10 \/ base = 16 -> 0 <= acc -> is_i128 acc ->
  (accumulate base false acc s = inl v <-> valacc base acc s = Some v /\ is_i128 v).
Proof. intros [->| ->]; apply accumulate_pos_gen; lia. Qed.
Lemma accumulate_neg base acc s v : base = 10 \/ base = 16 -> 0 <= acc -> is_i128 (- acc) ->
  (accumulate base true (- acc) s = inl v <-> valacc base acc s = Some (- v) /\ is_i128 v).
Proof.
  intros Hb. revert acc; induction s as [|c s IH]; cbn; intros acc Ha Hi.
  { split; [intros H; inversion H; subst|intros [H ?]; inversion H]; rewrite ?Z.opp_involutive; auto. }
  destruct (to_digit base c) eqn:D; [|intuition discriminate].
  apply to_digit_spec in D as [D1 D2]; auto. apply digit_is_nonneg in D1.
  replace (- acc * base - z) with (- (acc * base + z)) by lia.
  destruct (in_i128 (- acc * base)) eqn:E1; [destruct (in_i128 (- (acc * base + z))) eqn:E2|].
  - rewrite IH; try nia; [reflexivity|now apply in_i128_spec].
  - split; [discriminate|]. intros [V I]. apply valacc_ge in V; try nia.
    apply in_i128_false in E2. exfalso; apply E2. unfold is_i128 in *. nia.
  - split; [discriminate|]. intros [V I]. apply valacc_ge in V; try nia.
    apply in_i128_false in E1. exfalso; apply E1. unfold is_i128 in *. nia.
Qed.

Lemma zero_i128 : is_i128 0. Proof. unfold is_i128. lia. Qed.
Lemma accum_pos0 base s v : base = 10 \/ base = 16 ->
  (accumulate base false 0 s = inl v <-> value_is base s v /\ is_i128 v).
Proof. intros Hb. rewrite accumulate_pos by (auto using zero_i128; lia). now rewrite valacc_value. Qed.
Lemma accum_neg0 base s v : base = 10 \/ base = 16 ->
  (accumulate base true 0 s = inl v <-> value_is base s (- v) /\ is_i128 v).
Proof. intros Hb. change 0 with (- 0) at 1.
  rewrite accumulate_neg by (auto using zero_i128; lia). now rewrite valacc_value. Qed.

(** Texts accepted by [from_str_radix]. *)
Inductive radix_reads (base : Z) : str -> Z -> Prop :=
| rr_pos sg ds v : sg = [] \/ sg = [43%N] -> ds <> [] -> value_is base ds v -> is_i128 v ->
    radix_reads base (sg ++ ds) v
| rr_neg ds v : ds <> [] -> value_is base ds v -> is_i128 (- v) ->
    radix_reads base (45%N :: ds) (- v).

Lemma value_no_sign base c r v : base = 10 \/ base = 16 -> value_is base (c :: r) v -> c <> 43%N /\ c <> 45%N.
Proof.
  intros Hb H. apply valacc_value in H; auto. cbn in H.
  destruct (to_digit base c) eqn:D; [|discriminate]. apply to_digit_spec in D as [D _]; auto.
  inversion D; lia.
Qed.

Lemma from_str_radix_spec base s v : base = 10 \/ base = 16 ->
  (from_str_radix base s = inl v <-> radix_reads base s v).
Proof.
  intros Hb. split.
  - unfold from_str_radix. destruct s as [|c [|c2 r]]; [discriminate| |].
    + destruct (N.eqb_spec c 43), (N.eqb_spec c 45); cbn [orb]; try discriminate.
      intros H. apply accum_pos0 in H as [H I]; auto.
      apply (rr_pos base [] [c]); auto; discriminate.
    + destruct (N.eqb_spec c 43) as [->|]; [|destruct (N.eqb_spec c 45) as [->|]]; intros H.
      * apply accum_pos0 in H as [H I]; auto. apply (rr_pos base [43%N]); auto; discriminate.
      * apply accum_neg0 in H as [H I]; auto.
        rewrite <- (Z.opp_involutive v). apply rr_neg; [discriminate|auto|now rewrite Z.opp_involutive].
      * apply accum_pos0 in H as [H I]; auto. apply (rr_pos base []); auto; discriminate.
  - intros H. destruct H as [sg ds v [->| ->] Hn V I | ds v Hn V I].
    + cbn [app]. destruct ds as [|c r]; [contradiction|].
      destruct (value_no_sign base c r v Hb V) as [N1 N2].
      apply N.eqb_neq in N1, N2.
      assert (A : accumulate base false 0 (c :: r) = inl v) by (apply accum_pos0; auto).
      unfold from_str_radix. rewrite N1, N2. cbn [orb]. destruct r; exact A.
    + destruct ds as [|c r]; [contradiction|].
      assert (A : accumulate base false 0 (c :: r) = inl v) by (apply accum_pos0; auto).
      cbn [app]. unfold from_str_radix. exact A.
    + destruct ds as [|c r]; [contradiction|].
      assert (A : accumulate base true 0 (c :: r) = inl (- v))
        by (apply accum_neg0; rewrite ?Z.opp_involutive; auto).
      unfold from_str_radix. exact A.
Qed.

(** ** Character classes *)
Lemma lower_hex_spec c : lower_hex c = true <-> hex_char Lower c.
Proof. unfold lower_hex, hex_char, decimal_char. rewrite orb_true_iff, !andb_true_iff, !N.leb_le. tauto. Qed.
Lemma upper_hex_spec c : upper_hex c = true <-> hex_char Upper c.
Proof. unfold upper_hex, hex_char, decimal_char. rewrite orb_true_iff, !andb_true_iff, !N.leb_le. tauto. Qed.
Lemma is_dec_spec c : is_dec c = true <-> decimal_char c.
Proof. unfold is_dec, decimal_char. rewrite andb_true_iff, !N.leb_le. tauto. Qed.
Lemma hex_class_spec k c : hex_class k c = true <-> hex_char k c.
Proof.
  destruct k; cbn [hex_class]; [|apply upper_hex_spec|apply lower_hex_spec].
  rewrite orb_true_iff, lower_hex_spec, upper_hex_spec. unfold hex_char. tauto.
Qed.
Lemma valid_casing_spec k s : valid_casing k s = true <-> k = Any \/ Forall (hex_char k) s.
Proof.
  destruct k; cbn; [tauto| |]; rewrite forallb_forall, Forall_forall.
  - setoid_rewrite upper_hex_spec. intuition discriminate.
  - setoid_rewrite lower_hex_spec. intuition discriminate.
Qed.
Lemma value_dec_chars s v : value_is 10 s v -> Forall decimal_char s.
Proof.
  induction 1; [constructor|]. apply Forall_app; split; auto. constructor; [|constructor].
  inversion H0; subst; unfold decimal_char; lia.
Qed.
Lemma value_hex_chars s v : value_is 16 s v -> Forall (hex_char Any) s.
Proof.
  induction 1; [constructor|]. apply Forall_app; split; auto. constructor; [|constructor].
  inversion H0; subst; unfold hex_char, decimal_char; lia.
Qed.
Lemma digit_exists k c : hex_char k c -> exists d, digit_is c d.
Proof. unfold hex_char, decimal_char. destruct k; intros H;
  (destruct H as [H|H]; [eexists; now constructor|]); try (destruct H as [H|H]);
  solve [eexists; apply di_lower; lia | eexists; apply di_upper; lia]. Qed.
Lemma chars_value_dec s : Forall decimal_char s -> exists v, value_is 10 s v.
Proof.
  induction s as [|c s IH] using rev_ind; intros H; [exists 0; constructor|].
  apply Forall_app in H as [H1 H2]. inversion H2; subst. destruct (IH H1) as [v Hv].
  eexists. econstructor; [exact Hv|apply di_dec; exact H3|unfold decimal_char in *; lia].
Qed.
Lemma chars_value_hex k s : Forall (hex_char k) s -> exists v, value_is 16 s v.
Proof.
  induction s as [|c s IH] using rev_ind; intros H; [exists 0; constructor|].
  apply Forall_app in H as [H1 H2]. inversion H2; subst. destruct (IH H1) as [v Hv].
  destruct (digit_exists k c H3) as [d Hd]. pose proof (digit_is_nonneg _ _ Hd).
  eexists. econstructor; [exact Hv|exact Hd|lia].
Qed.
Lemma value_bound base s v : base = 10 \/ base = 16 -> value_is base s v -> v < base ^ Z.of_nat (List.length s).
Proof.
  intros Hb. induction 1; [cbn; lia|]. rewrite app_length. cbn [List.length].
  rewrite Nat2Z.inj_add, Z.pow_add_r by lia. change (Z.of_nat 1) with 1. rewrite Z.pow_1_r.
  apply digit_is_nonneg in H0. nia.
Qed.

(** ** Printing *)
Lemma digs_spec fuel base n : base = 10 \/ base = 16 -> 0 <= n -> n < 2 ^ Z.of_nat (S fuel) ->
  Forall (fun d => 0 <= d < base) (digs (S fuel) base n) /\
  digs (S fuel) base n <> [] /\
  fold_left (fun a d => a * base + d) (digs (S fuel) base n) 0 = n /\
  (0 < n -> hd 0 (digs (S fuel) base n) <> 0) /\ (n = 0 -> digs (S fuel) base n = [0]).
Proof.
  intros Hb. revert n; induction fuel as [|k IH]; intros n Hn L.
  - change (2 ^ Z.of_nat 1) with 2 in L. cbn [digs]. destruct (Z.ltb_spec n base); [|lia].
    repeat split; try discriminate; cbn; try lia.
    + constructor; [lia|constructor].
    + intros ->. reflexivity.
  - change (digs (S (S k)) base n) with
      (if n <? base then [n] else digs (S k) base (n / base) ++ [n mod base]).
    destruct (Z.ltb_spec n base).
    + repeat split; try discriminate; cbn; try lia.
      * constructor; [lia|constructor].
      * intros ->. reflexivity.
    + assert (Hd : 0 < n / base) by (apply Z.div_str_pos; lia).
      destruct (IH (n / base)) as (F & Ne & V & H0 & _); [lia| |].
      { replace (Z.of_nat (S (S k))) with (Z.of_nat (S k) + 1) in L by lia.
        rewrite Z.pow_add_r, Z.pow_1_r in L by lia.
        apply Z.div_lt_upper_bound; [lia|].
        assert (0 < 2 ^ Z.of_nat (S k)) by (apply Z.pow_pos_nonneg; lia). nia. }
      repeat split.
      * apply Forall_app; split; auto. constructor; [|constructor].
        apply Z.mod_pos_bound; lia.
      * intros C. destruct (digs (S k) base (n / base)); discriminate.
      * rewrite fold_left_app, V. cbn. rewrite (Z.div_mod n base) at 3 by lia. lia.
      * intros _. destruct (digs (S k) base (n / base)); [contradiction|]. apply H0. lia.
      * lia.
Qed.

Lemma digits_spec base n : base = 10 \/ base = 16 -> 0 <= n ->
  Forall (fun d => 0 <= d < base) (digits base n) /\
  digits base n <> [] /\
  fold_left (fun a d => a * base + d) (digits base n) 0 = n /\
  (0 < n -> hd 0 (digits base n) <> 0) /\ (n = 0 -> digits base n = [0]).
Proof.
  intros Hb Hn. unfold digits. apply digs_spec; auto.
  rewrite Nat2Z.inj_succ, Z2Nat.id by apply Z.log2_nonneg.
  destruct (Z.eq_dec n 0) as [->|]; [reflexivity|]. apply Z.log2_spec. lia.
Qed.

Lemma digit_char_is u d : 0 <= d < 16 -> digit_is (digit_char u d) d.
Proof.
  intros H. unfold digit_char. destruct (Z.ltb_spec d 10).
  - replace d with (Z.of_N (Z.to_N (48 + d)) - 48) at 2 by (rewrite Z2N.id; lia). apply di_dec. lia.
  - destruct u.
    + replace d with (Z.of_N (Z.to_N (55 + d)) - 55) at 2 by (rewrite Z2N.id; lia). apply di_upper. lia.
    + replace d with (Z.of_N (Z.to_N (87 + d)) - 87) at 2 by (rewrite Z2N.id; lia). apply di_lower. lia.
Qed.
Lemma digit_char_hex (u : bool) d : 0 <= d < 16 -> hex_char (if u then Upper else Lower) (digit_char u d).
Proof. intros H. unfold digit_char, hex_char, decimal_char. destruct (Z.ltb_spec d 10), u; lia. Qed.

Lemma fold_value base u l : base = 10 \/ base = 16 -> Forall (fun d => 0 <= d < base) l ->
  value_is base (map (digit_char u) l) (fold_left (fun a d => a * base + d) l 0).
Proof.
  intros Hb. induction l as [|d l IH] using rev_ind; intros H; [constructor|].
  apply Forall_app in H as [H1 H2]. inversion H2; subst.
  rewrite map_app, fold_left_app. cbn. constructor; auto; [apply digit_char_is|]; lia.
Qed.

Lemma show_digits_spec base u n : base = 10 \/ base = 16 -> 0 <= n ->
  value_is base (show_digits base u n) n /\ canonical (show_digits base u n) /\
  show_digits base u n <> [] /\
  Forall (hex_char (if u then Upper else Lower)) (show_digits base u n).
Proof.
  intros Hb Hn. destruct (digits_spec base n Hb Hn) as (F & Ne & V & H0 & Z0).
  unfold show_digits. split; [|split; [|split]].
  - rewrite <- V at 2. now apply fold_value.
  - destruct (Z.eq_dec n 0) as [E|E]; [left; rewrite Z0 by auto; now destruct u|].
    right. destruct (digits base n) as [|d l]; [contradiction|]. split; [discriminate|].
    cbn. cbn in H0. inversion F; subst. intros C.
    pose proof (digit_char_is u d ltac:(lia)) as D. rewrite C in D.
    specialize (H0 ltac:(lia)). inversion D; subst; lia.
  - now destruct (digits base n).
  - apply Forall_map. eapply Forall_impl; [|exact F]. cbn. intros d Hd. apply digit_char_hex. lia.
Qed.

Lemma value_zeros base k s v : base = 10 \/ base = 16 -> value_is base s v -> value_is base (repeat 48%N k ++ s) v.
Proof.
  intros Hb H. apply valacc_value; auto. apply valacc_value in H; auto.
  induction k; cbn; auto. assert (D : to_digit base 48 = Some 0) by (destruct Hb; subst; reflexivity).
  rewrite D. exact IHk.
Qed.

(** The magnitude whose digits are printed. *)
Definition shown (f : format) (v : Z) : Z :=
  match f with Unsigned _ => v mod 2 ^ 64 | Signed _ => Z.abs v | Hex _ _ _ => v mod 2 ^ 128 end.

Definition up_of (f : format) : bool := match f with Hex _ _ k => is_upper k | _ => false end.

Lemma display_shape f v :
  display (mkNum (Some f) v) =
  lead f v ++ repeat 48%N (precision_of f - List.length (show_digits (base_of f) (up_of f) (shown f v)))
    ++ show_digits (base_of f) (up_of f) (shown f v).
Proof.
  destruct f as [p|p|p b k]; cbn [display nformat nvalue lead precision_of base_of shown up_of];
    unfold pad_integral.
  - reflexivity.
  - set (D := show_digits 10 false (Z.abs v)).
    destruct (v <? 0), (Nat.eqb_spec p 0);
    match goal with |- _ ++ repeat _ ?m ++ _ = _ ++ repeat _ ?n ++ _ => replace m with n; [reflexivity|cbn; lia] end.
  - set (D := show_digits 16 (is_upper k) (v mod 2 ^ 128)).
    destruct b, (Nat.eqb_spec p 0);
    match goal with |- _ ++ repeat _ ?m ++ _ = _ ++ repeat _ ?n ++ _ => replace m with n; [reflexivity|cbn; lia] end.
Qed.

Lemma base_ok f : base_of f = 10 \/ base_of f = 16.
Proof. destruct f; cbn; auto. Qed.
Lemma shown_nonneg f v : 0 <= shown f v.
Proof. destruct f; cbn; [apply Z.mod_pos_bound; lia|lia|apply Z.mod_pos_bound; lia]. Qed.
Lemma hex_weaken k (u : bool) c : (k = Upper <-> u = true) -> hex_char (if u then Upper else Lower) c -> hex_char k c.
Proof. unfold hex_char. destruct k, u; intuition discriminate. Qed.

Lemma display_digits f v : exists zeros ds,
  display (mkNum (Some f) v) = lead f v ++ repeat 48%N zeros ++ ds /\
  zeros = (precision_of f - List.length ds)%nat /\
  canonical ds /\ ds <> [] /\ value_is (base_of f) ds (shown f v) /\ Forall (digit_of f) ds.
Proof.
  destruct (show_digits_spec (base_of f) (up_of f) (shown f v) (base_ok f) (shown_nonneg f v)) as (V & C & Ne & F).
  eexists _, _. split; [apply display_shape|]. repeat split; auto.
  destruct f as [p|p|p b k]; cbn [digit_of base_of up_of] in *.
  - eapply value_dec_chars; eauto.
  - eapply value_dec_chars; eauto.
  - eapply Forall_impl; [|exact F]. intros c. apply hex_weaken. destruct k; cbn; intuition discriminate.
Qed.

(** ** Parsing, characterised *)
Lemma check_precision_ok p n v w : check_precision p n v = POk w <-> v = w /\ (p <= n)%nat.
Proof.
  unfold check_precision. destruct (Nat.eqb_spec p 0), (Nat.ltb_spec n p); intuition (try congruence; try lia).
Qed.

Lemma strip_0x_spec s r : strip_0x s = Some r <-> s = of_string "0x" ++ r.
Proof.
  change (of_string "0x") with [48%N; 120%N].
  unfold strip_0x. destruct s as [|a [|b t]]; cbn [app]; try (split; discriminate).
  destruct (N.eqb_spec a 48), (N.eqb_spec b 120); cbn [andb]; subst;
    split; intros H; inversion H; subst; auto; contradiction.
Qed.

Lemma sign_first base s v : base = 10 \/ base = 16 -> radix_reads base s v -> starts_with_sign s = false ->
  s <> [] /\ value_is base s v /\ is_i128 v.
Proof.
  intros Hb [sg ds w [->| ->] Hn V I | ds w Hn V I]; cbn; intros H; try discriminate.
  auto.
Qed.

Lemma parse_unsigned p s v :
  parse_with_format s (Unsigned p) = POk v <-> written (Unsigned p) s v /\ is_i128 v.
Proof.
  cbn. destruct (starts_with_sign s) eqn:S.
  - split; [discriminate|]. intros [W _]. inversion W; try discriminate. subst.
    destruct s as [|c r]; [discriminate|]. cbn in S.
    apply (value_no_sign 10) in H3 as [H3 H4]; auto. apply N.eqb_neq in H3, H4. now rewrite H3, H4 in S.
  - destruct (from_str_radix 10 s) eqn:F.
    + apply from_str_radix_spec in F; auto. apply sign_first in F as (Ne & V & I); auto.
      rewrite check_precision_ok. split.
      * intros [-> P]. split; auto. eapply wr_unsigned; eauto. eapply value_dec_chars; eauto.
      * intros [W _]. inversion W; try discriminate. subst. injection H as <-.
        split; auto. eapply (value_is_fun 10); eauto.
    + split; [discriminate|]. intros [W I]. inversion W; try discriminate. subst.
      assert (X : from_str_radix 10 s = inl v)
        by (apply from_str_radix_spec; auto; apply (rr_pos 10 []); auto).
      congruence.
Qed.

Lemma parse_signed p s v :
  parse_with_format s (Signed p) = POk v <-> written (Signed p) s v /\ is_i128 v.
Proof.
  cbn. split.
  - destruct (from_str_radix 10 s) eqn:F; [|discriminate].
    apply from_str_radix_spec in F; auto. rewrite check_precision_ok. intros [<- P].
    destruct F as [sg ds w Hs Hn V I | ds w Hn V I].
    + split; auto. pose proof (value_dec_chars _ _ V) as FD. eapply (wr_signed_pos _ p sg ds w); auto.
      destruct Hs as [->| ->]; cbn in P; auto. unfold strip_sign in P.
      destruct ds as [|c r]; [contradiction|]. cbn in P.
      apply (value_no_sign 10) in V as [N1 N2]; auto. apply N.eqb_neq in N1, N2. rewrite N1, N2 in P. exact P.
    + split; auto. eapply wr_signed_neg; eauto. eapply value_dec_chars; eauto.
  - intros [W I].
    assert (R : radix_reads 10 s v /\ (p <= List.length (strip_sign s))%nat).
    { inversion W; try discriminate; subst; injection H as <-.
      - split; [apply rr_pos; auto; destruct H0; auto|].
        destruct H0 as [->| ->]; cbn; auto. unfold strip_sign.
        destruct ds as [|c r]; [contradiction|]. cbn.
        apply (value_no_sign 10) in H4 as [N1 N2]; auto. apply N.eqb_neq in N1, N2. rewrite N1, N2. exact H3.
      - split; [apply rr_neg; auto|]. exact H2. }
    destruct R as [R P]. apply from_str_radix_spec in R; auto. rewrite R. now apply check_precision_ok.
Qed.

(** Hexadecimal: the prefix is optional unless required, and a sign survives when any casing is
    accepted. *)
Inductive hex_written (p : nat) (b : bool) (k : casing) : str -> Z -> Prop :=
| hw pre sg ds v : pre = of_string "0x" \/ (pre = [] /\ b = false) ->
    sg = [] \/ (k = Any /\ (sg = of_string "+" \/ sg = of_string "-")) ->
    ds <> [] -> Forall (hex_char k) ds -> (p <= List.length (sg ++ ds))%nat -> value_is 16 ds v ->
    (forall r, (pre ++ sg ++ ds) = of_string "0x" ++ r -> pre = of_string "0x") ->
    hex_written p b k (pre ++ sg ++ ds) (if str_eqb sg (of_string "-") then - v else v).

Lemma hex_sign_char k c : hex_char k c -> c <> 43%N /\ c <> 45%N.
Proof. unfold hex_char, decimal_char. destruct k; lia. Qed.

Lemma parse_hex_body k p s v :
  (match from_str_radix 16 s with
   | inr e => PErr (InvalidFormat e)
   | inl v => if negb (valid_casing k s) then PErr InvalidCasing else check_precision p (List.length s) v
   end) = POk v <->
  exists sg ds w, s = sg ++ ds /\ (sg = [] \/ (k = Any /\ (sg = of_string "+" \/ sg = of_string "-"))) /\
    ds <> [] /\ Forall (hex_char k) ds /\ (p <= List.length (sg ++ ds))%nat /\ value_is 16 ds w /\
    v = (if str_eqb sg (of_string "-") then - w else w) /\ is_i128 v.
Proof.
  split.
  - destruct (from_str_radix 16 s) eqn:F; [|discriminate].
    apply from_str_radix_spec in F; auto.
    destruct (valid_casing k s) eqn:C; [|discriminate]. cbn [negb]. rewrite check_precision_ok.
    intros [<- P]. apply valid_casing_spec in C.
    destruct F as [sg ds w Hs Hn V I | ds w Hn V I].
    + exists sg, ds, w. splits; auto.
      * destruct Hs as [->| ->]; auto. destruct C as [->|C]; [auto|]. inversion C; subst.
        apply hex_sign_char in H1 as []; contradiction.
      * destruct C as [->|C]; [eapply value_hex_chars; eauto|]. apply Forall_app in C as []; auto.
      * destruct Hs as [->| ->]; reflexivity.
    + exists [45%N], ds, w. splits; auto.
      * right. destruct C as [->|C]; [auto|]. inversion C; subst. apply hex_sign_char in H1 as []; contradiction.
      * destruct C as [->|C]; [eapply value_hex_chars; eauto|]. inversion C; auto.
  - intros (sg & ds & w & -> & Hs & Hn & F & P & V & -> & I).
    assert (R : radix_reads 16 (sg ++ ds) (if str_eqb sg (of_string "-") then - w else w)).
    { destruct Hs as [->|(-> & [->| ->])]; cbn in *; [apply (rr_pos 16 [])|apply (rr_pos 16 [43%N])|apply rr_neg]; auto. }
    apply from_str_radix_spec in R; auto. rewrite R.
    assert (C : valid_casing k (sg ++ ds) = true).
    { apply valid_casing_spec. destruct Hs as [->|(-> & _)]; auto. }
    rewrite C. cbn [negb]. now apply check_precision_ok.
Qed.

Lemma parse_hex p b k s v :
  parse_with_format s (Hex p b k) = POk v <-> hex_written p b k s v /\ is_i128 v.
Proof.
  unfold parse_with_format. destruct (strip_0x s) as [r|] eqn:S.
  - apply strip_0x_spec in S. rewrite parse_hex_body. split.
    + intros (sg & ds & w & -> & Hs & Hn & F & P & V & -> & I). split; auto. subst s.
      apply hw; auto.
    + intros [W I]. inversion W as [pre sg ds w H0 H1 H2 H3 H4 H5 H6 Es Ev].
      rewrite S in Es. assert (pre = of_string "0x") by (eapply H6; exact Es). subst pre.
      apply app_inv_head in Es. subst r.
      exists sg, ds, w. splits; auto. congruence.
  - assert (NP : forall r, s <> of_string "0x" ++ r).
    { intros r ->. assert (strip_0x (of_string "0x" ++ r) = Some r) by now apply strip_0x_spec. congruence. }
    destruct b.
    + split; [discriminate|]. intros [W I]. inversion W. subst.
      destruct H as [->|[-> ?]]; [|discriminate]. exfalso; eapply NP; reflexivity.
    + rewrite parse_hex_body. split.
      * intros (sg & ds & w & -> & Hs & Hn & F & P & V & -> & I). split; auto.
        apply (hw p false k []); auto. intros r E. exfalso; eapply NP. exact E.
      * intros [W I]. inversion W as [pre sg ds w H0 H1 H2 H3 H4 H5 H6 Es Ev]. subst.
        destruct H0 as [->|[-> _]]; [exfalso; eapply NP; reflexivity|].
        exists sg, ds, w. splits; auto.
Qed.

(** Documented hexadecimal texts are accepted. *)
Lemma written_hex_written p b k s v : written (Hex p b k) s v -> hex_written p b k s v.
Proof.
  intros W. inversion W; try discriminate. subst. injection H as <- <- <-.
  assert (X : hex_written p b k ((if b then of_string "0x" else []) ++ [] ++ ds)
                (if str_eqb [] (of_string "-") then - v else v)).
  { apply hw; auto.
    - destruct b; auto.
    - intros r. destruct b; auto. cbn [app]. intros ->. exfalso.
      rewrite Forall_forall in H1. specialize (H1 120%N). cbn in H1.
      assert (hex_char k 120%N) by (apply H1; auto). unfold hex_char, decimal_char in H; destruct k; lia. }
  exact X.
Qed.
Lemma hex_written_written p b k s v : k <> Any -> (b = true \/ forall r, s <> of_string "0x" ++ r) ->
  hex_written p b k s v -> written (Hex p b k) s v.
Proof.
  intros Hk Hb H. revert Hb. destruct H as [pre sg ds w Hp [->|[-> _]] Hn F P V N]; [|contradiction]. intros Hb.
  cbn [app] in *. destruct Hp as [->|[-> ->]].
  - destruct Hb as [->|Hb]; [|exfalso; eapply Hb; reflexivity].
    apply (wr_hex (Hex p true k) p true k ds w); auto.
  - apply (wr_hex (Hex p false k) p false k ds w); auto.
Qed.

(** ** Roundtrip *)
Lemma display_written f v : representable f v -> written f (display (mkNum (Some f) v)) v.
Proof.
  intros R. destruct (display_digits f v) as (z & ds & -> & Hz & C & Ne & V & F).
  apply (value_zeros _ z) in V; [|apply base_ok].
  assert (Ne' : repeat 48%N z ++ ds <> []) by (intros E; apply app_eq_nil in E as [_ E]; contradiction).
  assert (L : (precision_of f <= List.length (repeat 48%N z ++ ds))%nat)
    by (rewrite app_length, repeat_length; lia).
  destruct f as [p|p|p b k]; cbn [lead shown base_of precision_of representable digit_of] in *.
  - rewrite Z.mod_small in V by lia. eapply wr_unsigned; eauto. eapply value_dec_chars; eauto.
  - destruct (Z.ltb_spec v 0).
    + rewrite Z.abs_neq in V by lia. rewrite <- (Z.opp_involutive v).
      eapply wr_signed_neg; eauto. eapply value_dec_chars; eauto.
    + rewrite Z.abs_eq in V by lia. eapply (wr_signed_pos _ p []); eauto. eapply value_dec_chars; eauto.
  - rewrite Z.mod_small in V by (unfold is_i128 in *; lia).
    replace (if b then of_string "0x" else []) with (if b then of_string "0x" else @nil N) by reflexivity.
    apply (wr_hex (Hex p b k) p b k); auto. apply Forall_app; split; auto.
    apply Forall_forall. intros c Hc. apply repeat_spec in Hc. subst. left. unfold decimal_char. lia.
Qed.

Lemma representable_i128 f v : representable f v -> is_i128 v.
Proof. unfold is_i128. destruct f; cbn [representable]; lia. Qed.

Lemma parse_written f s v : written f s v -> is_i128 v -> parse_with_format s f = POk v.
Proof.
  intros W I. destruct f.
  - now apply parse_unsigned.
  - now apply parse_signed.
  - apply parse_hex. split; auto. now apply written_hex_written.
Qed.

Lemma roundtrip f v : representable f v -> parse_with_format (display (mkNum (Some f) v)) f = POk v.
Proof. intros R. apply parse_written; [now apply display_written|eapply representable_i128; eauto]. Qed.

Lemma parse_deterministic_value f s v : written f s v -> forall w, parse_with_format s f = POk w -> w = v.
Proof.
  intros W w H. assert (I : is_i128 w) by
    (destruct f; [apply parse_unsigned in H|apply parse_signed in H|apply parse_hex in H]; tauto).
  destruct f.
  - apply parse_unsigned in H as [H _]. inversion H; inversion W; try discriminate. subst.
    eapply (value_is_fun 10); eauto.
  - apply parse_signed in H as [H _].
    assert (A : forall sg ds ds' x y, (sg = [] \/ sg = of_string "+") -> ds' <> [] ->
       value_is 10 ds x -> value_is 10 ds' y -> of_string "-" ++ ds' <> sg ++ ds).
    { intros sg ds ds' x y [->| ->] Hn Vx Vy E; cbn in E; [|discriminate].
      subst ds. apply (value_no_sign 10) in Vx as []; auto. }
    assert (B : forall sg sg' ds ds' x y, (sg = [] \/ sg = of_string "+") -> (sg' = [] \/ sg' = of_string "+") ->
       value_is 10 ds x -> value_is 10 ds' y -> sg ++ ds = sg' ++ ds' -> ds = ds').
    { intros sg sg' ds ds' x y [->| ->] [->| ->] Vx Vy E; cbn in E; auto.
      - subst ds. apply (value_no_sign 10) in Vx as [X _]; auto. now contradiction X.
      - subst ds'. apply (value_no_sign 10) in Vy as [X _]; auto. now contradiction X.
      - congruence. }
    inversion H; inversion W; try discriminate; subst.
    + assert (ds = ds0) by (eapply (B sg sg0); eauto). subst. eapply (value_is_fun 10); eauto.
    + exfalso. eapply (A sg ds ds0); [..|eassumption]; eauto.
    + exfalso. eapply (A sg ds0 ds); [..|symmetry; eassumption]; eauto.
    + assert (ds = ds0) by (cbn in *; congruence). subst. f_equal. eapply (value_is_fun 10); eauto.
  - apply written_hex_written in W.
    assert (P : parse_with_format s (Hex precision require_prefix c) = POk w) by exact H.
    apply parse_hex in H as [H _].
    inversion H as [pre sg ds x H0 H1 H2 H3 H4 H5 H6 Es Ev].
    inversion W as [pre' sg' ds' x' K0 K1 K2 K3 K4 K5 K6 Es' Ev'].
    subst s. assert (E : pre = pre').
    { destruct H0 as [->|[-> ?]], K0 as [->|[-> ?]]; auto.
      - symmetry. eapply K6. exact Es'.
      - eapply H6. symmetry. exact Es'. }
    subst pre'. apply app_inv_head in Es'.
    assert (E2 : sg = sg' /\ ds = ds').
    { assert (T : forall d y, value_is 16 d y -> d <> [] -> hd 0%N d <> 43%N /\ hd 0%N d <> 45%N).
      { intros [|a d] y Vy Hn; [contradiction|]. apply (value_no_sign 16) in Vy; auto. }
      pose proof (T _ _ H5 H2) as [T1 T2]. pose proof (T _ _ K5 K2) as [T3 T4].
      destruct ds as [|c1 d1]; [contradiction|]. destruct ds' as [|c2 d2]; [contradiction|].
      cbn in T1, T2, T3, T4.
      destruct H1 as [->|(-> & [->| ->])], K1 as [->|(K & [->| ->])]; cbn in Es'; inversion Es'; subst;
        auto; try contradiction; try (now exfalso; auto). }
    destruct E2 as [-> ->].
    assert (x = x') by (eapply (value_is_fun 16); eauto). subst. congruence.
Qed.

Lemma roundtrip_only_if f v : is_i128 v -> parse_with_format (display (mkNum (Some f) v)) f = POk v ->
  representable f v.
Proof.
  intros I H. unfold is_i128 in I. destruct f as [p|p|p b k]; cbn [representable]; auto.
  - destruct (display_digits (Unsigned p) v) as (z & ds & E & Hz & C & Ne & V & F).
    rewrite E in H. cbn [lead app shown base_of precision_of digit_of] in *.
    apply parse_unsigned in H as [W _]. inversion W; try discriminate. subst.
    apply (value_zeros _ (p - List.length ds)) in V; [|auto].
    assert (v = v mod 2 ^ 64) by (eapply (value_is_fun 10); eauto).
    pose proof (Z.mod_pos_bound v (2 ^ 64) ltac:(lia)). lia.
  - destruct (Z.ltb_spec v 0); [|lia]. exfalso.
    assert (P : v mod 2 ^ 128 = v + 2 ^ 128) by (symmetry; apply (Zmod_unique _ _ (-1)); lia).
    destruct (display_digits (Hex p b k) v) as (z & ds & E & Hz & C & Ne & V & F).
    cbn [lead app shown base_of precision_of digit_of] in *.
    apply (value_zeros _ z) in V; [|auto].
    assert (W : written (Hex p b k) (display (mkNum (Some (Hex p b k)) v)) (v mod 2 ^ 128)).
    { rewrite E. apply (wr_hex (Hex p b k) p b k); auto.
      - intros X; apply app_eq_nil in X as [_ X]; contradiction.
      - apply Forall_app; split; auto.
        apply Forall_forall. intros c Hc. apply repeat_spec in Hc. subst. left. unfold decimal_char. lia.
      - rewrite app_length, repeat_length. lia. }
    apply (parse_deterministic_value _ _ _ W) in H. lia.
Qed.

(** ** Texts matched by the regex of a format *)
Lemma in_lang_written f s : in_lang (format_lang f) s -> exists v, written f s v.
Proof.
  intros (sg & ds & -> & Hs & F & L).
  destruct f as [p|p|p b k]; cbn [format_lang sign_ok lprefix dclass lo hi] in *.
  - destruct Hs as [->|[? _]]; [|discriminate]. cbn [app].
    assert (D : Forall decimal_char ds) by (eapply Forall_impl; [|exact F]; intros c; apply is_dec_spec).
    destruct (chars_value_dec ds D) as [v V]. exists v. eapply wr_unsigned; eauto.
    + destruct ds; [|discriminate]. cbn in L. destruct (Nat.eqb_spec p 0); lia.
    + destruct (Nat.eqb_spec p 0); lia.
  - assert (D : Forall decimal_char ds) by (eapply Forall_impl; [|exact F]; intros c; apply is_dec_spec).
    destruct (chars_value_dec ds D) as [v V]. cbn [app].
    assert (ds <> []) by (destruct ds; [cbn in L; destruct (Nat.eqb_spec p 0); lia|discriminate]).
    assert ((p <= List.length ds)%nat) by (destruct (Nat.eqb_spec p 0); lia).
    destruct Hs as [->|[_ [->| ->]]].
    + exists v. eapply (wr_signed_pos _ p []); eauto.
    + exists v. eapply (wr_signed_pos _ p [43%N]); eauto.
    + exists (- v). eapply wr_signed_neg; eauto.
  - assert (K : Forall (hex_char k) ds).
    { eapply Forall_impl; [|exact F]. intros c. destruct b; cbn; apply hex_class_spec. }
    destruct (chars_value_hex k ds K) as [v V]. exists v.
    assert (sg = []) by (destruct Hs as [?|[X _]]; auto; destruct b; discriminate). subst sg.
    replace ([] ++ lprefix (if b then _ else _) ++ ds) with ((if b then of_string "0x" else []) ++ ds)
      by (destruct b; reflexivity).
    apply (wr_hex (Hex p b k) p b k); auto; destruct b; cbn in L.
    + destruct ds; [cbn in L; destruct (Nat.eqb_spec p 0); lia|discriminate].
    + destruct ds; [cbn in L; destruct (Nat.eqb_spec p 0); lia|discriminate].
    + destruct (Nat.eqb_spec p 0); lia.
    + destruct (Nat.eqb_spec p 0); lia.
Qed.

Definition count_digits (f : format) (s : str) : nat :=
  List.length (filter (fun c => hex_class Any c) (match strip_0x s with Some r => r | None => s end)).

Lemma filter_all {A} (g : A -> bool) l : Forall (fun x => g x = true) l -> filter g l = l.
Proof. induction 1; cbn; auto. now rewrite H, IHForall. Qed.

Lemma in_lang_parses f s : in_lang (format_lang f) s ->
  (List.length s <= match f with Hex _ true _ => 33 | Hex _ false _ => 31 | _ => 38 end)%nat ->
  exists v, parse_with_format s f = POk v /\ written f s v.
Proof.
  intros H L. destruct (in_lang_written f s H) as [v W]. exists v. split; auto.
  apply parse_written; auto. unfold is_i128. inversion W; subst.
  - pose proof (value_bound 10 s v ltac:(auto) H4). pose proof (value_is_nonneg 10 s v ltac:(auto) H4).
    assert (10 ^ Z.of_nat (List.length s) <= 10 ^ 38) by (apply Z.pow_le_mono_r; lia). lia.
  - pose proof (value_bound 10 ds v ltac:(auto) H5). pose proof (value_is_nonneg 10 ds v ltac:(auto) H5).
    rewrite app_length in L.
    assert (10 ^ Z.of_nat (List.length ds) <= 10 ^ 38) by (apply Z.pow_le_mono_r; lia). lia.
  - pose proof (value_bound 10 ds v0 ltac:(auto) H4). pose proof (value_is_nonneg 10 ds v0 ltac:(auto) H4).
    rewrite app_length in L.
    assert (10 ^ Z.of_nat (List.length ds) <= 10 ^ 38) by (apply Z.pow_le_mono_r; lia). lia.
  - pose proof (value_bound 16 ds v ltac:(auto) H4). pose proof (value_is_nonneg 16 ds v ltac:(auto) H4).
    rewrite app_length in L.
    assert (16 ^ Z.of_nat (List.length ds) <= 16 ^ 31) by (apply Z.pow_le_mono_r; [lia|destruct b; cbn in L; lia]). lia.
Qed.

(** ** Expressions *)
Lemma apply_op_means op a b v : apply_op op a b = Some v -> op_means op a b v.
Proof.
  destruct op; cbn; intros H;
    try (destruct (in_i128 _); [|discriminate]; inversion H; subst; constructor);
    try (inversion H; subst; constructor).
  destruct (Z.eqb_spec b 0) as [|Hb]; [discriminate|].
  destruct (in_i128 (Z.quot a b)); [|discriminate]. inversion H; subst.
  apply (om_div a b (Z.quot a b) (Z.rem a b)); auto.
  - apply Z.quot_rem'.
  - now apply Z.rem_bound_abs.
  - now apply Z.rem_sign_mul.
Qed.

Lemma evaluate_means fuel env ex e n : evaluate_expr fuel env ex e = RNum n -> expr_means env e (nvalue n).
Proof.
  revert e n; induction fuel as [|k IH]; intros e n; [discriminate|].
  destruct e as [m|x|l|op a b]; cbn [evaluate_expr].
  - intros H; inversion H; subst. constructor.
  - destruct (env x) as [[| |e']|] eqn:E; try discriminate. intros H.
    econstructor; eauto.
  - intros H; inversion H; subst. constructor.
  - destruct (evaluate_expr k env ex a) eqn:Ea; try discriminate.
    + destruct (evaluate_expr k env ex b) eqn:Eb; try discriminate.
      destruct (match infer_format _ _ with Some f => Some f | None => ex end); try discriminate.
      destruct (apply_op op (nvalue n0) (nvalue n1)) eqn:O; try discriminate.
      intros H; inversion H; subst. cbn. econstructor; eauto. now apply apply_op_means.
    + destruct (evaluate_expr k env ex b); discriminate.
Qed.

(** Every intermediate value fits and no format gets in the way. *)
Inductive fits (env : str -> option value) : nexpr -> Z -> Prop :=
| ft_num v : fits env (ENum (mkNum None v)) v
| ft_line l : fits env (ELine l) l
| ft_var x e v : env x = Some (VNum e) -> fits env e v -> fits env (EVar x) v
| ft_bin op a b x y z : fits env a x -> fits env b y -> op_means op x y z -> is_i128 z ->
    fits env (EBin op a b) z.

Lemma op_means_apply op a b z : op_means op a b z -> is_i128 z -> apply_op op a b = Some z.
Proof.
  intros H I. assert (E : in_i128 z = true) by now apply in_i128_spec.
  destruct H; cbn; try now rewrite E.
  - destruct (Z.eqb_spec b 0); [contradiction|].
    assert (X : Z.quot a b = q).
    { symmetry. apply (Zquot_unique_full a b q r); auto. unfold Remainder.
      destruct (Z.le_gt_cases 0 a), (Z.lt_trichotomy 0 r) as [Hr|[Hr|Hr]].
      - left. lia.
      - left. lia.
      - right. assert (a <= 0) by nia. lia.
      - exfalso. nia.
      - right. lia.
      - right. lia. }
    rewrite X. now rewrite E.
  - auto.
  - auto.
  - auto.
Qed.

Lemma evaluate_mono k env ex e n : evaluate_expr k env ex e = RNum n ->
  forall k', (k <= k')%nat -> evaluate_expr k' env ex e = RNum n.
Proof.
  revert e n; induction k as [|k IH]; intros e n; [discriminate|].
  intros H [|k'] L; [lia|]. apply le_S_n in L.
  destruct e as [m|x|l|op a b]; cbn [evaluate_expr] in *; auto.
  - destruct (env x) as [[| |e']|]; auto.
  - destruct (evaluate_expr k env ex a) eqn:Ea; try discriminate.
    + destruct (evaluate_expr k env ex b) eqn:Eb; try discriminate.
      rewrite (IH _ _ Ea k' L), (IH _ _ Eb k' L). exact H.
    + destruct (evaluate_expr k env ex b); discriminate.
Qed.

Lemma fits_evaluates env e v : fits env e v ->
  exists k, forall ex, exists n, evaluate_expr k env ex e = RNum n /\ nvalue n = v /\
    (ex = None -> nformat n = None) /\ (nformat n = None \/ nformat n = Some default_format).
Proof.
  induction 1 as [v|l|x e v E F IH|op a b x y z Fa IHa Fb IHb O I].
  - exists 1%nat. intros ex. eexists; cbn; splits; auto.
  - exists 1%nat. intros ex. eexists; cbn; splits; auto.
  - destruct IH as [k IH]. exists (S k). intros ex. destruct (IH ex) as (n & En & Hn).
    exists n. cbn. rewrite E. auto.
  - destruct IHa as [ka IHa], IHb as [kb IHb]. exists (S (Nat.max ka kb)). intros ex.
    destruct (IHa ex) as (na & Ea & Va & Na & Da), (IHb ex) as (nb & Eb & Vb & Nb & Db).
    apply (evaluate_mono _ _ _ _ _) with (k' := Nat.max ka kb) in Ea; [|lia].
    apply (evaluate_mono _ _ _ _ _) with (k' := Nat.max ka kb) in Eb; [|lia].
    cbn [evaluate_expr]. rewrite Ea, Eb, Va, Vb, (op_means_apply _ _ _ _ O I).
    assert (infer_format (nformat na) (nformat nb) = Some default_format) as ->.
    { destruct Da as [-> | ->], Db as [-> | ->]; reflexivity. }
    eexists. split; [reflexivity|]. cbn. splits; auto.
    + intros ->. rewrite Na, Nb by auto. reflexivity.
    + destruct (nformat na), (nformat nb), ex; auto.
Qed.

(** ** Format inference *)
Definition forget_casing (f : format) : format :=
  match f with Hex p b _ => Hex p b Any | f => f end.
Lemma casing_eqb_sym a b : casing_eqb a b = casing_eqb b a.
Proof. now destruct a, b. Qed.
Lemma prec_sym a b : prec_compatible a b = prec_compatible b a.
Proof. unfold prec_compatible. rewrite (Nat.eqb_sym a b), <- !orb_assoc, (orb_comm (Nat.eqb a 0)). reflexivity. Qed.

Lemma infer_sym_casing l r :
  option_map forget_casing (infer_format l r) = option_map forget_casing (infer_format r l).
Proof.
  destruct l as [[p|p|p b k]|], r as [[q|q|q c j]|]; cbn; auto.
  - rewrite (prec_sym q p). destruct (prec_compatible p q); auto. cbn. now rewrite Nat.max_comm.
  - rewrite (prec_sym q p). destruct (prec_compatible p q); auto. cbn. now rewrite Nat.max_comm.
  - rewrite (prec_sym q p), (casing_eqb_sym j k).
    assert (Bool.eqb b c = Bool.eqb c b) as -> by now destruct b, c.
    rewrite <- !orb_assoc, (orb_comm (casing_eqb j Any)).
    destruct (Bool.eqb c b) eqn:B, (prec_compatible p q), (casing_eqb k j || (casing_eqb k Any || casing_eqb j Any))%bool;
      auto. cbn. apply eqb_prop in B. subst. now rewrite Nat.max_comm.
Qed.

Lemma infer_max l r f g : l = Some f -> r = Some g -> forall h, infer_format l r = Some h ->
  precision_of h = Nat.max (precision_of f) (precision_of g).
Proof.
  intros -> -> h. destruct f as [p|p|p b k], g as [q|q|q c j]; cbn; try discriminate;
    match goal with |- context [if ?x then _ else _] => destruct x end; intros H; inversion H; reflexivity.
Qed.
