(** Properties C05-C07, C45-C48: numbers and numeric expressions. *)
From Verif Require Import Base Num_Model Num_Spec Num_Proofs.
From Coq Require Import String.
Local Open Scope Z_scope.

(** C05 is false as stated: an unsigned format wraps values at 64 bits (num.rs:282), and a
    negative value printed in hexadecimal is its two's complement, which the parser rejects. *)
Theorem C05_refuted : exists f v, is_i128 v /\ parse_with_format (display (mkNum (Some f) v)) f <> POk v.
Proof. exists (Unsigned 0), (2 ^ 64). split; [unfold is_i128; lia|vm_compute; discriminate]. Qed.
Print Assumptions C05_refuted.
Example C05_hex_negative :
  parse_with_format (display (mkNum (Some (Hex 0 true Lower)) (-1))) (Hex 0 true Lower)
  = PErr (InvalidFormat IPosOverflow).
Proof. vm_compute. reflexivity. Qed.

(** C05, exactly: the round trip works for precisely the representable values. *)
Theorem C05_roundtrip_partial : forall f v, is_i128 v ->
  (parse_with_format (display (mkNum (Some f) v)) f = POk v <-> representable f v).
Proof. intros f v I. split; [exact (roundtrip_only_if f v I)|exact (roundtrip f v)]. Qed.
Print Assumptions C05_roundtrip_partial.
Example C05_example :
  representable (Hex 8 true Upper) 48879 /\ is_i128 48879 /\
  display (mkNum (Some (Hex 8 true Upper)) 48879) = of_string "0x0000BEEF" /\
  representable (Signed 4) (-42) /\
  display (mkNum (Some (Signed 4)) (-42)) = of_string "-0042".
Proof. repeat split; vm_compute; congruence. Qed.

(** C06. The printed text is the sign or prefix, padding zeros up to the precision and no
    further, and the canonical numeral of the magnitude. *)
Theorem C06_precision : forall f v, representable f v -> exists zeros ds,
  display (mkNum (Some f) v) = lead f v ++ repeat 48%N zeros ++ ds /\
  zeros = (precision_of f - List.length ds)%nat /\
  canonical ds /\ Forall (digit_of f) ds /\ value_is (base_of f) ds (Z.abs v).
Proof.
  intros f v R. destruct (display_digits f v) as (z & ds & E & Hz & C & Ne & V & F).
  exists z, ds. repeat (split; [assumption|]).
  replace (Z.abs v) with (shown f v); [exact V|].
  destruct f; cbn [representable shown] in *; try reflexivity; rewrite Z.mod_small; lia.
Qed.
Print Assumptions C06_precision.
(** For the remaining values only the magnitude differs (it wraps). *)
Theorem C06_precision_wrapping : forall f v, exists zeros ds,
  display (mkNum (Some f) v) = lead f v ++ repeat 48%N zeros ++ ds /\
  zeros = (precision_of f - List.length ds)%nat /\
  canonical ds /\ ds <> [] /\
  value_is (base_of f) ds
    (match f with Unsigned _ => v mod 2 ^ 64 | Signed _ => Z.abs v | Hex _ _ _ => v mod 2 ^ 128 end) /\
  Forall (digit_of f) ds.
Proof. exact display_digits. Qed.
Print Assumptions C06_precision_wrapping.
Example C06_example : representable (Unsigned 5) 123 /\
  display (mkNum (Some (Unsigned 5)) 123) = of_string "00123".
Proof. split; [cbn; lia|reflexivity]. Qed.

(** C07 is false as stated: the casing is the left operand's (num.rs:95-117). *)
Theorem C07_refuted : exists l r, infer_format l r <> infer_format r l.
Proof. exists (Some (Hex 0 true Any)), (Some (Hex 0 true Upper)). discriminate. Qed.
Print Assumptions C07_refuted.
(** C07, the part that holds: symmetric except for the casing of hexadecimal digits, and the
    precision is the larger one. *)
Theorem C07_symmetric_partial : forall l r,
  option_map forget_casing (infer_format l r) = option_map forget_casing (infer_format r l).
Proof. exact infer_sym_casing. Qed.
Print Assumptions C07_symmetric_partial.
Theorem C07_precision : forall f g h, infer_format (Some f) (Some g) = Some h ->
  precision_of h = Nat.max (precision_of f) (precision_of g).
Proof. intros f g h. exact (infer_max (Some f) (Some g) f g eq_refl eq_refl h). Qed.
Print Assumptions C07_precision.
Example C07_example :
  infer_format (Some (Signed 3)) (Some (Signed 0)) = Some (Signed 3) /\
  infer_format (Some (Signed 3)) (Some (Signed 4)) = None /\
  infer_format (Some (Hex 2 true Lower)) (Some (Hex 2 false Lower)) = None.
Proof. repeat split. Qed.

(** C45. What the parser of a format accepts. False in general: with any casing a sign is
    accepted after the prefix, and a format without prefix accepts the prefix (num.rs:172-247). *)
Theorem C45_refuted : exists f s v, parse_with_format s f = POk v /\ ~ written f s v.
Proof.
  exists (Hex 0 true Any), (of_string "0x-5"), (-5). split; [reflexivity|].
  intros W. inversion W; try discriminate.
  apply (value_is_nonneg 16) in H4; [|now right]. lia.
Qed.
Print Assumptions C45_refuted.
Example C45_prefix_accepted_when_absent :
  parse_with_format (of_string "0x1f") (Hex 0 false Lower) = POk 31.
Proof. reflexivity. Qed.
(** C45, the part that holds: exact for decimal formats, and for hexadecimal formats with a
    required prefix and a fixed casing; complete for every format. *)
Theorem C45_decimal_exact : forall f s v, (exists p, f = Unsigned p \/ f = Signed p) ->
  (parse_with_format s f = POk v <-> written f s v /\ is_i128 v).
Proof. intros f s v [p [-> | ->]]; [apply parse_unsigned|apply parse_signed]. Qed.
Print Assumptions C45_decimal_exact.
Theorem C45_hex_exact_partial : forall p k s v, k <> Any ->
  (parse_with_format s (Hex p true k) = POk v <-> written (Hex p true k) s v /\ is_i128 v).
Proof.
  intros p k s v Hk. split.
  - intros H. apply parse_hex in H as [H I]. split; [|exact I].
    apply hex_written_written; [exact Hk|now left|exact H].
  - intros [W I]. exact (parse_written _ _ _ W I).
Qed.
Print Assumptions C45_hex_exact_partial.
Theorem C45_complete : forall f s v, written f s v -> is_i128 v -> parse_with_format s f = POk v.
Proof. exact parse_written. Qed.
Print Assumptions C45_complete.
Theorem C45_value_unique : forall f s v w, written f s v -> parse_with_format s f = POk w -> w = v.
Proof. intros f s v w W. exact (parse_deterministic_value f s v W w). Qed.
Print Assumptions C45_value_unique.
Example C45_example : written (Signed 2) (of_string "+07") 7 /\
  parse_with_format (of_string "+7") (Signed 2) = PErr PrecisionMismatch /\
  parse_with_format (of_string "+7") (Unsigned 0) = PErr UnexpectedSign /\
  parse_with_format (of_string "0xfF") (Hex 0 true Lower) = PErr InvalidCasing.
Proof.
  repeat split. apply (wr_signed_pos (Signed 2) 2 (of_string "+") (of_string "07")); auto; try discriminate.
  - repeat constructor; cbn; lia.
  - change 7 with ((0 * 10 + 0) * 10 + 7).
    apply (vi_snoc 10 (of_string "0") (0 * 10 + 0) 55%N 7); [|apply (di_dec 55); lia|lia].
    apply (vi_snoc 10 [] 0 48%N 0); [constructor|apply (di_dec 48); lia|lia].
Qed.

(** C45. The error says what is wrong: a sign in an unsigned number, a missing prefix, too few digits,
    digits of the wrong casing, or no number of this base at all. *)
Definition loosened (f : format) : format :=
  match f with Unsigned _ => Unsigned 0 | Signed _ => Signed 0 | Hex _ b k => Hex 0 b k end.
Theorem C45_errors : forall f s e, parse_with_format s f = PErr e ->
  match e with
  | UnexpectedSign => (exists p, f = Unsigned p) /\ exists c r, s = c :: r /\ (c = 43 \/ c = 45)%N
  | MissingPrefix => (exists p k, f = Hex p true k) /\ forall r, s <> of_string "0x" ++ r
  | PrecisionMismatch => exists v, parse_with_format s (loosened f) = POk v
  | InvalidCasing => exists p b k v, f = Hex p b k /\ k <> Any /\ parse_with_format s (Hex 0 b Any) = POk v
  | InvalidFormat i => parse_with_format s (loosened f) = PErr (InvalidFormat i)
  end.
Proof.
  intros f s e. destruct f as [p|p|p b k]; cbn [parse_with_format loosened].
  - destruct (starts_with_sign s) eqn:S.
    + intros [= <-]. split; eauto. destruct s as [|c r]; [discriminate|]. exists c, r. split; auto. cbn in S. apply orb_true_iff in S. now rewrite !N.eqb_eq in S.
    + destruct (from_str_radix 10 s) as [v|i]; [|now intros [= <-]]. unfold check_precision. destruct (Nat.eqb p 0); [discriminate|]. destruct Nat.ltb; [|discriminate]. intros [= <-]. cbn. eauto.
  - destruct (from_str_radix 10 s) as [v|i]; [|now intros [= <-]]. unfold check_precision. destruct (Nat.eqb p 0); [discriminate|]. destruct Nat.ltb; [|discriminate]. intros [= <-]. cbn. eauto.
  - assert (P : strip_0x s = None -> forall r, s <> of_string "0x" ++ r) by (intros N r ->; discriminate).
    destruct (strip_0x s) as [r|] eqn:X; [|destruct b].
    + destruct (from_str_radix 16 r) as [v|i]; [|now intros [= <-]]. destruct (valid_casing k r) eqn:K; cbn [negb].
      * unfold check_precision. destruct (Nat.eqb p 0); [discriminate|]. destruct Nat.ltb; [|discriminate]. intros [= <-]. cbn. eauto.
      * intros [= <-]. exists p, b, k, v. repeat split; auto. intros ->. discriminate.
    + intros [= <-]. split; eauto.
    + destruct (from_str_radix 16 s) as [v|i]; [|now intros [= <-]]. destruct (valid_casing k s) eqn:K; cbn [negb].
      * unfold check_precision. destruct (Nat.eqb p 0); [discriminate|]. destruct Nat.ltb; [|discriminate]. intros [= <-]. cbn. eauto.
      * intros [= <-]. exists p, false, k, v. repeat split; auto. intros ->. discriminate.
Qed.
Print Assumptions C45_errors.

(** C45. And of what is no number it says why. *)
Lemma accumulate_why base neg s : base = 10 \/ base = 16 -> forall acc i, 0 <= acc ->
  accumulate base neg (if neg then - acc else acc) s = inr i ->
  (i = IInvalidDigit /\ exists ds c r, s = ds ++ c :: r /\ Forall (fun d => exists x, digit_is d x /\ x < base) ds /\ ~ (exists x, digit_is c x /\ x < base)) \/
  (exists ds r v, s = ds ++ r /\ valacc base acc ds = Some v /\
     if neg then i = INegOverflow /\ - v < - 2 ^ 127 else i = IPosOverflow /\ 2 ^ 127 <= v).
Proof.
  intros Hb. induction s as [|c s IH]; intros acc i Ha H; [discriminate H|]. cbn [accumulate] in H. destruct (to_digit base c) as [d|] eqn:D.
  - pose proof D as D'. apply to_digit_spec in D as [D1 D2]; [|assumption]. pose proof (digit_is_nonneg _ _ D1) as D3.
    destruct (in_i128 ((if neg then - acc else acc) * base)) eqn:E1.
    + destruct (in_i128 (if neg then (if neg then - acc else acc) * base - d else (if neg then - acc else acc) * base + d)) eqn:E2.
      * assert (G : accumulate base neg (if neg then - (acc * base + d) else acc * base + d) s = inr i)
          by (rewrite <- H; f_equal; destruct neg; lia).
        apply IH in G; [|nia]. destruct G as [(-> & ds & x & r & -> & F & N)|(ds & r & v & -> & V & O)].
        -- left. split; [reflexivity|]. exists (c :: ds), x, r. split; [reflexivity|]. split; [constructor; eauto|assumption].
        -- right. exists (c :: ds), r, v. split; [reflexivity|]. cbn [valacc]. rewrite D'. now split.
      * right. exists [c], s, (acc * base + d). split; [reflexivity|]. cbn [valacc]. rewrite D'. split; [reflexivity|].
        apply in_i128_false in E2. unfold is_i128 in E2. injection H as <-. destruct neg; (split; [reflexivity|nia]).
    + right. exists [c], s, (acc * base + d). split; [reflexivity|]. cbn [valacc]. rewrite D'. split; [reflexivity|].
      apply in_i128_false in E1. unfold is_i128 in E1. injection H as <-. destruct neg; (split; [reflexivity|nia]).
  - injection H as <-. left. split; [reflexivity|]. exists [], c, s. split; [reflexivity|]. split; [constructor|].
    intros (x & A & B). assert (E : to_digit base c = Some x) by (now apply to_digit_spec). congruence.
Qed.
Lemma radix_why base s i : base = 10 \/ base = 16 -> from_str_radix base s = inr i -> no_number base s i.
Proof.
  intros Hb H.
  assert (P : forall sg t, (sg = [] \/ sg = of_string "+") -> accumulate base false 0 t = inr i -> no_number base (sg ++ t) i).
  { intros sg t S A. apply (accumulate_why base false t Hb 0) in A; [|lia]. destruct A as [(-> & ds & c & r & -> & F & N)|(ds & r & v & -> & V & -> & O)].
    - apply nn_digit; [tauto|assumption|assumption].
    - apply (nn_large base sg ds r v S); [now apply valacc_value|assumption]. }
  assert (M : forall t, accumulate base true 0 t = inr i -> no_number base (of_string "-" ++ t) i).
  { intros t A. apply (accumulate_why base true t Hb 0) in A; [|lia]. destruct A as [(-> & ds & c & r & -> & F & N)|(ds & r & v & -> & V & -> & O)].
    - apply (nn_digit base (of_string "-")); [tauto|assumption|assumption].
    - apply (nn_small base ds r v); [now apply valacc_value|assumption]. }
  assert (Q : forall c r, accumulate base false 0 (c :: r) = inr i -> no_number base (c :: r) i) by (intros c r; apply (P []); now left).
  destruct s as [|c [|d r]]; cbn [from_str_radix] in H.
  - injection H as <-. constructor.
  - destruct (N.eqb c 43 || N.eqb c 45)%bool eqn:E; [|now apply Q].
    injection H as <-. apply (nn_digit base [] [] c []); [now left|constructor|]. apply orb_true_iff in E. rewrite !N.eqb_eq in E.
    intros (x & A & _). destruct E; subst c; inversion A; lia.
  - destruct (N.eqb_spec c 43); [subst c; apply (P (of_string "+")); [now right|assumption]|].
    destruct (N.eqb_spec c 45); [subst c; apply M; assumption|]. now apply Q.
Qed.
Theorem C45_reason : forall f s i, parse_with_format s f = PErr (InvalidFormat i) ->
  no_number (base_of f) s i \/ exists p b k r, f = Hex p b k /\ s = of_string "0x" ++ r /\ no_number 16 r i.
Proof.
  intros f s i. destruct f as [p|p|p b k]; cbn [parse_with_format base_of].
  - destruct (starts_with_sign s); [discriminate|]. destruct (from_str_radix 10 s) as [v|j] eqn:E.
    + unfold check_precision. destruct (Nat.eqb p 0); [discriminate|]. destruct Nat.ltb; discriminate.
    + intros [= <-]. left. apply radix_why; [now left|assumption].
  - destruct (from_str_radix 10 s) as [v|j] eqn:E.
    + unfold check_precision. destruct (Nat.eqb p 0); [discriminate|]. destruct Nat.ltb; discriminate.
    + intros [= <-]. left. apply radix_why; [now left|assumption].
  - assert (G : forall t, match from_str_radix 16 t with
        | inr e => PErr (InvalidFormat e)
        | inl v => if negb (valid_casing k t) then PErr InvalidCasing else check_precision p (List.length t) v end = PErr (InvalidFormat i) -> no_number 16 t i).
    { intros t. destruct (from_str_radix 16 t) as [v|j] eqn:E.
      - destruct (negb (valid_casing k t)); [discriminate|]. unfold check_precision. destruct (Nat.eqb p 0); [discriminate|]. destruct Nat.ltb; discriminate.
      - intros [= <-]. apply radix_why; [now right|assumption]. }
    destruct (strip_0x s) as [r|] eqn:X.
    + intros H. right. exists p, b, k, r. split; [reflexivity|]. split; [now apply strip_0x_spec|now apply G].
    + destruct b; [discriminate|]. intros H. left. now apply G.
Qed.
Print Assumptions C45_reason.
Example C45_reason_example : parse_with_format (of_string "-") (Signed 0) = PErr (InvalidFormat IInvalidDigit) /\
  parse_with_format (of_string "0x") (Hex 0 true Any) = PErr (InvalidFormat IEmpty) /\
  parse_with_format (repeat 57%N 39) (Unsigned 0) = PErr (InvalidFormat IPosOverflow).
Proof. repeat split; vm_compute; reflexivity. Qed.

(** C46. A text captured by a format's pattern can be read as a number. False at the limits: the
    pattern allows 39 decimal or 32 hexadecimal digits (num.rs:448-485). *)
Theorem C46_refuted : exists f s, compiles (format_lang f) /\ in_lang (format_lang f) s /\
  parse_with_format s f = PErr (InvalidFormat IPosOverflow).
Proof.
  exists (Unsigned 0), (repeat 57%N 39). split; [cbv; lia|]. split; [|vm_compute; reflexivity].
  exists [], (repeat 57%N 39). repeat split; auto; try (cbv; lia).
  apply Forall_forall. intros c Hc. apply repeat_spec in Hc. subst. reflexivity.
Qed.
Print Assumptions C46_refuted.
Theorem C46_uncompilable : exists f, ~ compiles (format_lang f).
Proof. exists (Unsigned 40). cbv. lia. Qed.
Print Assumptions C46_uncompilable.
Theorem C46_captured_parses_partial : forall f s, in_lang (format_lang f) s ->
  (List.length s <= match f with Hex _ true _ => 33 | Hex _ false _ => 31 | _ => 38 end)%nat ->
  exists v, parse_with_format s f = POk v /\ written f s v.
Proof. exact in_lang_parses. Qed.
Print Assumptions C46_captured_parses_partial.
Example C46_example : in_lang (format_lang (Signed 2)) (of_string "-12").
Proof.
  exists [45%N], (of_string "12"). split; [reflexivity|]. split; [right; cbn; auto|]. split; [|cbv; lia].
  repeat constructor.
Qed.

(** C47. The value of an expression is the integer it denotes, whatever the formats; and when
    all intermediate values fit in 128 bits it has that value. *)
Theorem C47_value : forall fuel env explicit e n,
  evaluate_expr fuel env explicit e = RNum n -> expr_means env e (nvalue n).
Proof. exact evaluate_means. Qed.
Print Assumptions C47_value.
Theorem C47_evaluates : forall env e v, fits env e v ->
  exists k, forall explicit, exists n,
    evaluate_expr k env explicit e = RNum n /\ nvalue n = v /\
    (explicit = None -> nformat n = None) /\ (nformat n = None \/ nformat n = Some default_format).
Proof. exact fits_evaluates. Qed.
Print Assumptions C47_evaluates.
(** The text searched for is the value in the format asked for, else in the expression's own format,
    else as an unsigned number; a string stands for itself; nothing else has a text. *)
Theorem C47_substituted : forall explicit r t, substitution_text explicit r = Some t ->
  (exists n, r = RNum n /\
    let f := match explicit, nformat n with Some f, _ => f | None, Some f => f | None, None => Unsigned 0 end in
    (is_i128 (nvalue n) -> parse_with_format t f = POk (nvalue n) <-> representable f (nvalue n)) /\
    exists zeros ds, t = lead f (nvalue n) ++ repeat 48%N zeros ++ ds /\ zeros = (precision_of f - List.length ds)%nat /\ Forall (digit_of f) ds) \/
  r = RStr t.
Proof.
  intros explicit r t. destruct r as [n|s| | | | |]; cbn; try discriminate.
  - intros [= <-]. left. exists n. split; [reflexivity|]. cbv zeta.
    set (f := match explicit, nformat n with Some f, _ => f | None, Some f => f | None, None => Unsigned 0 end).
    assert (E : display match explicit with Some f => mkNum (Some f) (nvalue n) | None => n end = display (mkNum (Some f) (nvalue n))).
    { subst f. destruct explicit; auto; destruct n as [[g|] v]; reflexivity. }
    rewrite E. split; [apply C05_roundtrip_partial|]. destruct (display_digits f (nvalue n)) as (z & ds & D & Z & _ & _ & _ & F). eauto 6.
  - intros [= <-]. auto.
Qed.
Print Assumptions C47_substituted.
(** Fuel only bounds the recursion: a value once found does not change. *)
Theorem C47_fuel : forall k env explicit e n, evaluate_expr k env explicit e = RNum n ->
  forall k', (k <= k')%nat -> evaluate_expr k' env explicit e = RNum n.
Proof. exact evaluate_mono. Qed.
Print Assumptions C47_fuel.
Example C47_example :
  let env := fun x => if str_eqb x (of_string "X") then Some (VNum (ENum (mkNum None 7))) else None in
  fits env (EBin OAdd (EBin ODiv (EVar (of_string "X")) (ENum (mkNum None (-2)))) (ELine 10)) 7 /\
  evaluate_expr 9 env None (EBin OAdd (EBin ODiv (EVar (of_string "X")) (ENum (mkNum None (-2)))) (ELine 10))
   = RNum (mkNum None 7).
Proof.
  split; [|reflexivity].
  apply (ft_bin _ _ _ _ (-3) 10); [|constructor|apply (om_add (-3) 10)|unfold is_i128; lia].
  apply (ft_bin _ _ _ _ 7 (-2)); [|constructor|apply (om_div 7 (-2) (-3) 1); lia|unfold is_i128; lia].
  eapply ft_var; [reflexivity|constructor].
Qed.

(** C48. Evaluating an expression never aborts the process: false, for arithmetic that leaves the
    128-bit range and for division by zero (searcher.rs:670-684). *)
Theorem C48_refuted : exists e1 e2 : nexpr,
  evaluate_expr 3 (fun _ => None) None e1 = RPanic /\ evaluate_expr 3 (fun _ => None) None e2 = RPanic.
Proof.
  exists (EBin ODiv (ENum (mkNum None 1)) (ENum (mkNum None 0))),
         (EBin OAdd (ENum (mkNum None i128_max)) (ENum (mkNum None 1))).
  split; vm_compute; reflexivity.
Qed.
Print Assumptions C48_refuted.
(** ... and a variable bound to an expression that mentions it is never resolved. *)
Theorem C48_cycle_refuted : exists env e, forall fuel, evaluate_expr fuel env None e = RFuel.
Proof.
  exists (fun _ => Some (VNum (EVar (of_string "X")))), (EVar (of_string "X")).
  induction fuel as [|k IH]; [reflexivity|exact IH].
Qed.
Print Assumptions C48_cycle_refuted.
