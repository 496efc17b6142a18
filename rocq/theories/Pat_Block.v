(** The words of a block, and what the parser makes of a pattern. *)
From Coq Require Import String.
From Verif Require Import Base Num_Model Num_Spec Num_Proofs Env_Model Gram_Model Gram_Proofs Script_Model Parse_Model Parse_Spec Parse_Proofs Parse_Lines Parse_Tokens Pat_Spec Pat_Proofs.
From Verif Require BoolExpr_Model BoolExpr_Proofs Script_Proofs Script_Spec.
Open Scope string_scope.
Open Scope list_scope.
Notation length := List.length.
Ltac splits := repeat match goal with |- _ /\ _ => split end.

(** ** Characters *)
Lemma ident_start_spec c : is_ident_start c = true <-> letter c.
Proof. unfold is_ident_start, is_alpha, letter. rewrite orb_true_iff, N.eqb_eq. lia. Qed.
Lemma dec_spec c : is_dec c = true <-> digit c.
Proof. unfold is_dec, digit. lia. Qed.
Lemma ident_char_spec c : is_ident_char c = true <-> word_char c.
Proof. unfold is_ident_char, word_char. rewrite orb_true_iff, ident_start_spec, dec_spec. reflexivity. Qed.
Lemma hex_spec c : is_hex c = true <-> hex_digit c.
Proof. unfold is_hex, hex_digit. rewrite !orb_true_iff, dec_spec, !andb_true_iff, !N.leb_le. tauto. Qed.
Lemma bin_spec c : is_bin c = true <-> bin_digit c.
Proof. unfold is_bin, bin_digit. rewrite orb_true_iff, !N.eqb_eq. lia. Qed.
Lemma gap_spec c : is_ascii_ws c = true <-> indent_char c \/ c = 10%N.
Proof. unfold is_ascii_ws, indent_char. rewrite !orb_true_iff, !N.eqb_eq. tauto. Qed.
Lemma span_word p (Q : N -> Prop) w s : (forall c, p c = true <-> Q c) -> Forall Q w -> not_next Q s -> span p (w ++ s) = (w, s).
Proof.
  intros H F N. induction F as [|c w h F IH]; cbn [app span].
  - destruct s as [|c s]; [reflexivity|]. cbn. destruct (p c) eqn:E; [|reflexivity]. apply H in E. now apply (N c s) in E.
  - rewrite (proj2 (H c) h). now rewrite IH.
Qed.
Lemma span_inv p (Q : N -> Prop) s w r : (forall c, p c = true <-> Q c) -> span p s = (w, r) -> s = w ++ r /\ Forall Q w /\ not_next Q r.
Proof.
  intros H. revert w r. induction s as [|c s IH]; intros w r; cbn [span].
  - intros [= <- <-]. splits; auto. intros c r [=].
  - destruct (p c) eqn:E.
    + destruct (span p s) as [a b]. intros [= <- <-]. destruct (IH _ _ eq_refl) as (-> & F & N). splits; auto. constructor; [now apply H|easy].
    + intros [= <- <-]. splits; auto. intros d r [= <- <-] X. apply H in X. congruence.
Qed.

(** ** Numbers *)
Lemma radix_pos base ds n : (2 <= base <= 16)%Z -> from_str_radix base ds = inl n -> Forall (fun c => c <> 43 /\ c <> 45)%N ds ->
  ds <> [] /\ value_is base ds n /\ (n < 2 ^ 127)%Z.
Proof.
  intros B E F. assert (A : Num_Model.accumulate base false 0 ds = inl n /\ ds <> []).
  { unfold from_str_radix in E. destruct ds as [|c [|d r]]; [discriminate| |].
    - inversion F as [|? ? [N1 N2] _]; subst. rewrite (proj2 (N.eqb_neq c 43)), (proj2 (N.eqb_neq c 45)) in E by easy. now split.
    - inversion F as [|? ? [N1 N2] _]; subst. rewrite (proj2 (N.eqb_neq c 43)), (proj2 (N.eqb_neq c 45)) in E by easy. now split. }
  destruct A as [A N]. apply accumulate_pos_gen in A as [V I]; auto; [|lia|apply zero_i128]. apply valacc_value_gen in V; auto. splits; auto. unfold is_i128 in I. lia.
Qed.
Lemma radix_reads_pos base ds n : (2 <= base <= 16)%Z -> ds <> [] -> value_is base ds n -> (n < 2 ^ 127)%Z -> Forall (fun c => c <> 43 /\ c <> 45)%N ds ->
  from_str_radix base ds = inl n.
Proof.
  intros B N V L F. assert (I : is_i128 n).
  { unfold is_i128. assert (0 <= n)%Z; [|lia]. apply valacc_value_gen in V; auto. apply valacc_ge_gen in V; auto. lia. }
  assert (A : Num_Model.accumulate base false 0 ds = inl n) by (apply accumulate_pos_gen; auto using zero_i128; [lia|]; split; [now apply valacc_value_gen|easy]).
  unfold from_str_radix. destruct ds as [|c [|d r]]; [easy| |]; inversion F as [|? ? [N1 N2] _]; subst; rewrite (proj2 (N.eqb_neq c 43)), (proj2 (N.eqb_neq c 45)) by easy; exact A.
Qed.
Lemma value_chars base ds n : value_is base ds n -> Forall (fun c => exists d, digit_is c d /\ (d < base)%Z) ds.
Proof. induction 1 as [|s v c d V IH D L]; [constructor|]. apply Forall_app. split; [easy|]. constructor; [|constructor]. now exists d. Qed.
Lemma value_dec ds n : value_is 10 ds n -> Forall digit ds.
Proof. intros V. apply value_chars in V. apply (Forall_impl _) with (2 := V). intros c (d & D & L). unfold digit. inversion D; subst; lia. Qed.
Lemma value_hex ds n : value_is 16 ds n -> Forall hex_digit ds.
Proof. intros V. apply value_chars in V. apply (Forall_impl _) with (2 := V). intros c (d & D & L). unfold hex_digit, digit. inversion D; subst; lia. Qed.
Lemma value_bin ds n : value_is 2 ds n -> Forall bin_digit ds.
Proof. intros V. apply value_chars in V. apply (Forall_impl _) with (2 := V). intros c (d & D & L). unfold bin_digit. inversion D; subst; lia. Qed.
Lemma dec_no_sign ds : Forall digit ds -> Forall (fun c => c <> 43 /\ c <> 45)%N ds.
Proof. apply Forall_impl. unfold digit. intros c. lia. Qed.
Lemma hex_no_sign ds : Forall hex_digit ds -> Forall (fun c => c <> 43 /\ c <> 45)%N ds.
Proof. apply Forall_impl. unfold hex_digit, digit. intros c. lia. Qed.
Lemma bin_no_sign ds : Forall bin_digit ds -> Forall (fun c => c <> 43 /\ c <> 45)%N ds.
Proof. apply Forall_impl. unfold bin_digit. intros c. lia. Qed.
(** the number a text begins with *)
Inductive number (s : str) : Z -> str -> Prop :=
| nr_dec ds n r : s = ds ++ r -> ds <> [] -> value_is 10 ds n -> (n < 2 ^ 127)%Z ->
    ~ starts (of_string "0x") s -> ~ starts (of_string "0b") s -> not_next digit r -> number s n r
| nr_hex ds n r : s = of_string "0x" ++ ds ++ r -> ds <> [] -> value_is 16 ds n -> (n < 2 ^ 127)%Z -> not_next hex_digit r -> number s n r
| nr_bin ds n r : s = of_string "0b" ++ ds ++ r -> ds <> [] -> value_is 2 ds n -> (n < 2 ^ 127)%Z -> not_next bin_digit r -> number s n r.
Lemma number_sound s n r : number s n r -> lex_number s = (TNum n, r).
Proof.
  unfold lex_number. intros [ds m q -> N V L X B D|ds m q -> N V L D|ds m q -> N V L D].
  - rewrite (proj2 (strip_none _ _) X), (proj2 (strip_none _ _) B).
    rewrite (span_word is_dec digit) by eauto using dec_spec, value_dec. rewrite (radix_reads_pos 10 ds m); eauto using dec_no_sign, value_dec. lia.
  - replace (strip_prefix (of_string "0x") (of_string "0x" ++ ds ++ q)) with (Some (ds ++ q)) by (symmetry; now apply Script_Proofs.strip_prefix_spec).
    rewrite (span_word is_hex hex_digit) by eauto using hex_spec, value_hex. rewrite (radix_reads_pos 16 ds m); eauto using hex_no_sign, value_hex. lia.
  - replace (strip_prefix (of_string "0x") (of_string "0b" ++ ds ++ q)) with (@None str) by reflexivity.
    replace (strip_prefix (of_string "0b") (of_string "0b" ++ ds ++ q)) with (Some (ds ++ q)) by (symmetry; now apply Script_Proofs.strip_prefix_spec).
    rewrite (span_word is_bin bin_digit) by eauto using bin_spec, value_bin. rewrite (radix_reads_pos 2 ds m); eauto using bin_no_sign, value_bin. lia.
Qed.
Lemma number_complete s t r : lex_number s = (t, r) -> (t = TBad) \/ exists n, t = TNum n /\ number s n r.
Proof.
  unfold lex_number. destruct (strip_prefix (of_string "0x") s) as [q|] eqn:X; [|destruct (strip_prefix (of_string "0b") s) as [q|] eqn:B].
  - apply Script_Proofs.strip_prefix_spec in X. destruct (span is_hex q) as [ds u] eqn:E. intros [= <- <-].
    apply (span_inv _ hex_digit) in E as (-> & F & N); [|apply hex_spec]. destruct (from_str_radix 16 ds) as [n|] eqn:R; [|now left].
    right. exists n. split; [reflexivity|]. apply radix_pos in R as (A & V & L); [|lia|now apply hex_no_sign]. now apply (nr_hex s ds).
  - apply Script_Proofs.strip_prefix_spec in B. destruct (span is_bin q) as [ds u] eqn:E. intros [= <- <-].
    apply (span_inv _ bin_digit) in E as (-> & F & N); [|apply bin_spec]. destruct (from_str_radix 2 ds) as [n|] eqn:R; [|now left].
    right. exists n. split; [reflexivity|]. apply radix_pos in R as (A & V & L); [|lia|now apply bin_no_sign]. now apply (nr_bin s ds).
  - apply strip_none in X, B. destruct (span is_dec s) as [ds u] eqn:E. intros [= <- <-].
    apply (span_inv _ digit) in E as (E & F & N); [|apply dec_spec]. destruct (from_str_radix 10 ds) as [n|] eqn:R; [|now left].
    right. exists n. split; [reflexivity|]. apply radix_pos in R as (A & V & L); [|lia|now apply dec_no_sign]. now apply (nr_dec s ds).
Qed.

(** ** Words *)
Lemma keyword_not_bad w : keyword_or_ident w <> TBad.
Proof. unfold keyword_or_ident. now repeat destruct (str_eqb w _). Qed.
Lemma word_is_spec w t : word_is w t <-> keyword_or_ident w = t.
Proof.
  split.
  - intros [x u I ->|N].
    + cbn [keywords In] in I. repeat destruct I as [[= <- <-]|I]; try reflexivity. easy.
    + unfold keyword_or_ident. repeat match goal with |- context [str_eqb w ?x] => let H := fresh "H" in destruct (str_eqb w x) eqn:H;
        [apply str_eqb_eq in H; subst w; exfalso; (eapply N; [|reflexivity]); cbn [keywords In]; tauto|] end. reflexivity.
  - intros <-. unfold keyword_or_ident. repeat match goal with |- context [str_eqb w ?x] => let H := fresh "H" in destruct (str_eqb w x) eqn:H;
        [apply str_eqb_eq in H; subst w; (eapply wi_keyword; [|reflexivity]); cbn [keywords In]; tauto|] end.
    apply wi_name. intros x t I ->. cbn [keywords In] in I. repeat destruct I as [[= <- <-]|I]; try discriminate. easy.
Qed.
Lemma sp_word_of numeric gap w s ts : word w -> not_next word_char s -> spelt numeric true s ts -> spelt numeric gap (w ++ s) (keyword_or_ident w :: ts).
Proof. intros W N H. apply sp_word; auto. now apply word_is_spec. Qed.
Definition special (c : N) : bool := existsb (N.eqb c) [35; 37; 46; 44; 43; 45; 64; 36; 61; 40; 41; 58]%N.
Definition plain_step (k : nat) (numeric strip : bool) (c : N) (r : str) : list token :=
  if is_ident_start c then let '(w, r') := span is_ident_char (c :: r) in keyword_or_ident w :: lex_block k numeric true r'
  else if is_dec c then let '(t, r') := lex_number (c :: r) in t :: lex_block k numeric true r'
  else if is_ascii_ws c && strip then lex_block k numeric strip r
  else [TBad; TRaw r].
Lemma lex_plain k numeric strip c r : special c = false -> lex_block (S k) numeric strip (c :: r) = plain_step k numeric strip c r.
Proof.
  intros S0. unfold special in S0. cbn [existsb] in S0. repeat (apply orb_false_iff in S0 as [? S0]).
  cbn [lex_block]. repeat match goal with H : N.eqb c _ = false |- _ => rewrite H; clear H end. cbn [andb]. reflexivity.
Qed.
Lemma lex_punct k numeric strip x t g s : In (x, (t, g)) punctuation ->
  lex_block (S k) numeric strip (of_string x ++ s) = t :: lex_block k numeric (match g with Some b => b | None => strip end) s.
Proof. cbn [punctuation In]. intros H. repeat destruct H as [H|H]; try (injection H as <- <- <-; reflexivity). easy. Qed.
Lemma letter_plain c : letter c -> special c = false.
Proof. intros L. apply ident_start_spec in L. destruct (special c) eqn:E; [|easy]. unfold special in E. apply existsb_exists in E as (d & I & E). apply N.eqb_eq in E as ->.
  cbn in I. repeat destruct I as [<-|I]; try discriminate L. easy. Qed.
Lemma digit_plain c : digit c -> special c = false.
Proof. intros L. apply dec_spec in L. destruct (special c) eqn:E; [|easy]. unfold special in E. apply existsb_exists in E as (d & I & E). apply N.eqb_eq in E as ->.
  cbn in I. repeat destruct I as [<-|I]; try discriminate L. easy. Qed.
Lemma gap_plain c : is_ascii_ws c = true -> special c = false /\ is_ident_start c = false /\ is_dec c = false.
Proof. intros L. apply gap_spec in L. unfold indent_char in L. repeat destruct L as [L|L]; subst; auto. Qed.
Lemma digit_not_letter c : digit c -> is_ident_start c = false.
Proof. intros D. destruct (is_ident_start c) eqn:E; [|easy]. apply ident_start_spec in E. unfold digit, letter in *. lia. Qed.
Lemma number_digit s n r : number s n r -> exists c q, s = c :: q /\ digit c /\ length r < length s.
Proof.
  intros [ds m q -> N V L X B D|ds m q -> N V L D|ds m q -> N V L D].
  - destruct ds as [|c ds]; [easy|]. apply value_dec in V. inversion V; subst. exists c, (ds ++ q). splits; auto. cbn [app length]. rewrite app_length. lia.
  - exists 48%N, (120%N :: ds ++ q). splits; auto; [unfold digit; lia|]. rewrite !app_length. cbn. lia.
  - exists 48%N, (98%N :: ds ++ q). splits; auto; [unfold digit; lia|]. rewrite !app_length. cbn. lia.
Qed.
Lemma lex_num k numeric strip s n r : number s n r -> lex_block (S k) numeric strip s = TNum n :: lex_block k numeric true r.
Proof.
  intros H. destruct (number_digit _ _ _ H) as (c & q & -> & D & _). rewrite lex_plain by now apply digit_plain. unfold plain_step.
  rewrite digit_not_letter by easy. rewrite (proj2 (dec_spec c) D). now rewrite (number_sound _ _ _ H).
Qed.
Lemma spelt_lex numeric gap s ts : spelt numeric gap s ts -> forall n, length s < n -> lex_block n numeric gap s = ts.
Proof.
  assert (X : forall (x : string) y, x <> "" -> length y < length (of_string x ++ y)).
  { intros x y N. rewrite app_length. destruct x; [easy|]. cbn. lia. }
  induction 1 as [gap|c s ts C H IH|gap x t g s ts I H IH|gap s ts E H IH|gap s E|gap w t0 s ts W K N H IH|gap ds n0 s ts N V L A B D H IH|gap ds n0 s ts N V L D H IH|gap ds n0 s ts N V L D H IH]; intros n Ln;
    (destruct n as [|n]; [lia|]).
  - reflexivity.
  - apply gap_spec in C. destruct (gap_plain _ C) as (S1 & S2 & S3). rewrite lex_plain by easy. unfold plain_step. rewrite S2, S3, C. cbn [andb]. apply IH. cbn in Ln. lia.
  - rewrite (lex_punct _ _ _ _ _ _ _ I). f_equal. apply IH. assert (x <> "") by (intros ->; cbn in I; repeat destruct I as [I|I]; easy).
    specialize (X x s H0). lia.
  - subst numeric. change (TColon :: lex_block n true true s = TColon :: ts). f_equal. apply IH. cbn in Ln. lia.
  - subst numeric. reflexivity.
  - apply word_is_spec in K as <-. destruct W as (c & r & -> & Lc & F). cbn [app]. rewrite lex_plain by now apply letter_plain. unfold plain_step. rewrite (proj2 (ident_start_spec c) Lc).
    change (c :: r ++ s) with ((c :: r) ++ s). rewrite (span_word is_ident_char word_char); auto using ident_char_spec; [|constructor; [now left|easy]].
    f_equal. apply IH. cbn [app length] in Ln. rewrite app_length in Ln. lia.
  - assert (Q : number (ds ++ s) n0 s) by (now apply (nr_dec _ ds)). rewrite (lex_num _ _ _ _ _ _ Q). f_equal. apply IH. destruct (number_digit _ _ _ Q) as (? & ? & _ & _ & ?). lia.
  - assert (Q : number (of_string "0x" ++ ds ++ s) n0 s) by (now apply (nr_hex _ ds)). rewrite (lex_num _ _ _ _ _ _ Q). f_equal. apply IH. destruct (number_digit _ _ _ Q) as (? & ? & _ & _ & ?). lia.
  - assert (Q : number (of_string "0b" ++ ds ++ s) n0 s) by (now apply (nr_bin _ ds)). rewrite (lex_num _ _ _ _ _ _ Q). f_equal. apply IH. destruct (number_digit _ _ _ Q) as (? & ? & _ & _ & ?). lia.
Qed.
Lemma lex_spelt n : forall numeric gap s, length s < n -> ~ In TBad (lex_block n numeric gap s) -> spelt numeric gap s (lex_block n numeric gap s).
Proof.
  induction n as [|n IH]; intros numeric gap s L B; [lia|].
  destruct s as [|c r]; [constructor|]. cbn in L. destruct (special c) eqn:Sp.
  - unfold special in Sp. apply existsb_exists in Sp as (d & I & E). apply N.eqb_eq in E as ->.
    assert (One : forall (x : string) t g, In (x, (t, g)) punctuation -> of_string x = [d] -> spelt numeric gap (d :: r) (lex_block (S n) numeric gap (d :: r))).
    { intros x t g Ix Ex. change (d :: r) with ([d] ++ r) in *. rewrite <- Ex in *. rewrite (lex_punct _ _ _ _ _ _ _ Ix) in *. eapply sp_punct; [exact Ix|].
      apply IH; [lia|]. intros X. apply B. now right. }
    cbn [In] in I. repeat destruct I as [I|I]; try easy; subst d; try first [apply (One "#" THash (Some false)); [cbn [punctuation In]; auto 14|reflexivity] | apply (One "%" TPercent (Some false)); [cbn [punctuation In]; auto 14|reflexivity] | apply (One "." TDot (Some false)); [cbn [punctuation In]; auto 14|reflexivity] | apply (One "," TComma None); [cbn [punctuation In]; auto 14|reflexivity] | apply (One "+" TPlus (Some true)); [cbn [punctuation In]; auto 14|reflexivity] | apply (One "-" TMinus (Some true)); [cbn [punctuation In]; auto 14|reflexivity] | apply (One "@" TAt (Some false)); [cbn [punctuation In]; auto 14|reflexivity] | apply (One "$" TDollar (Some false)); [cbn [punctuation In]; auto 14|reflexivity] | apply (One "(" TLParen (Some true)); [cbn [punctuation In]; auto 14|reflexivity] | apply (One ")" TRParen (Some true)); [cbn [punctuation In]; auto 14|reflexivity]].
    + destruct r as [|e r]; [exfalso; apply B; now left|]. destruct (N.eqb_spec e 61) as [->|Ne].
      * change (61%N :: 61%N :: r) with (of_string "==" ++ r) in *. rewrite (lex_punct n numeric gap "==" TEquals (Some true)) in * by (cbn; auto 12).
        apply (sp_punct _ _ "==" TEquals (Some true)); [cbn; auto 12|]. apply IH; [cbn in L; lia|]. intros X. apply B. now right.
      * exfalso. apply B. cbn [lex_block]. rewrite (proj2 (N.eqb_neq e 61) Ne). cbn. now left.
    + destruct numeric.
      * change (spelt true gap (of_string ":" ++ r) (TColon :: lex_block n true true r)). apply sp_colon; [reflexivity|]. apply IH; [lia|]. intros X. apply B. now right.
      * apply sp_pattern. reflexivity.
  - rewrite lex_plain in * by easy. unfold plain_step in *. destruct (is_ident_start c) eqn:Id.
    + destruct (span is_ident_char (c :: r)) as [w r'] eqn:E. apply (span_inv _ word_char) in E as (E & F & N); [|apply ident_char_spec].
      rewrite E. destruct w as [|c' w].
      * exfalso. cbn in E. subst r'. apply ident_start_spec in Id. apply (N c r eq_refl). now left.
      * injection E as <- E. inversion F as [|? ? F1 F2]; subst. apply sp_word_of; auto.
        -- exists c, w. splits; auto. now apply ident_start_spec.
        -- apply IH; [rewrite app_length in L; lia|]. intros X. apply B. now right.
    + destruct (is_dec c) eqn:Dc.
      * destruct (lex_number (c :: r)) as [t r'] eqn:E. apply number_complete in E as [->|(m & -> & Q)]; [exfalso; apply B; now left|].
        destruct (number_digit _ _ _ Q) as (? & ? & _ & _ & Lr). cbn in Lr.
        assert (IHr : spelt numeric true r' (lex_block n numeric true r')) by (apply IH; [lia|]; intros X; apply B; now right).
        destruct Q as [ds k q E N V Lk A0 B0 D|ds k q E N V Lk D|ds k q E N V Lk D]; rewrite E in *.
        -- now apply sp_dec.
        -- now apply sp_hex.
        -- now apply sp_bin.
      * destruct (is_ascii_ws c && gap) eqn:Ws; [|exfalso; apply B; now left]. apply andb_prop in Ws as [Ws ->].
        apply sp_gap; [now apply gap_spec|]. apply IH; [lia|easy].
Qed.

(** ** Blocks *)
Definition ok_tok (t : token) : Prop := t <> TBad.
Lemma d_expr_ok : (forall ts x, d_expr ts x -> Forall ok_tok ts) /\ (forall ts x, d_sub ts x -> Forall ok_tok ts) /\
  (forall ts x, d_builtin ts x -> Forall ok_tok ts) /\ (forall ts x, d_args ts x -> Forall ok_tok ts).
Proof.
  assert (V : forall ts v, d_var ts v -> Forall ok_tok ts).
  { intros ts v [? ? []|? ? []]; repeat constructor; discriminate. }
  apply d_mut; intros; rewrite ?app_comm_cons; repeat (rewrite ?Forall_app in *; repeat match goal with |- _ /\ _ => split | |- Forall _ (_ :: _) => constructor | |- Forall _ [] => constructor end); auto; try discriminate; eauto.
  now destruct t.
Qed.
Ltac toks := repeat (rewrite ?Forall_app in *; repeat match goal with |- _ /\ _ => split | |- Forall _ (_ :: _) => constructor | |- Forall _ [] => constructor end); auto; try discriminate.
Lemma d_match_ok ts m : d_match ts m -> Forall ok_tok ts.
Proof.
  destruct d_expr_ok as (E & Sb & B & _).
  assert (P0 : forall ts v, d_pattern_var ts v -> Forall ok_tok ts) by (intros ? ? []; toks).
  assert (L0 : forall ts v, d_line_var ts v -> Forall ok_tok ts) by (intros ? ? []; toks).
  assert (V : forall ts v, d_var ts v -> Forall ok_tok ts) by (intros ? ? []; eauto).
  assert (M0 : forall ts v, d_maybe_global ts v -> Forall ok_tok ts) by (intros ? ? []; toks).
  assert (R : forall l ts x, d_rest l ts x -> Forall ok_tok ts) by (intros ? ? ? []; toks; eauto).
  assert (C : forall ts x, d_constraint ts x -> Forall ok_tok ts) by (intros ? ? []; toks; eauto).
  assert (K : forall ts c e, d_capture ts c e -> Forall ok_tok ts).
  { intros ? ? ? []; toks; eauto. }
  assert (Pr : forall ts n, d_precision ts n -> Forall ok_tok ts) by (intros ? ? []; toks).
  assert (Px : forall ts n, d_prefix ts n -> Forall ok_tok ts) by (intros ? ? []; toks).
  assert (F : forall ts n, d_format ts n -> Forall ok_tok ts).
  { intros ? ? [? ? ? ? [->| ->]| | |]; toks; eauto. }
  intros [a v H|a v op b x H O H'|a v H|a v s H| |f fm H|a c e H|f fm a c e H H']; toks; eauto.
  - destruct O as [->| ->]; discriminate.
  - apply R in H'. inversion H'; auto.
Qed.
Lemma block_no_end fuel : forall numeric strip s, ~ In TMatchEnd (lex_block fuel numeric strip s) /\ ~ In TErr (lex_block fuel numeric strip s).
Proof.
  induction fuel as [|k IH]; intros numeric strip s; [easy|].
  assert (C : forall t ts, t <> TMatchEnd -> t <> TErr -> ~ In TMatchEnd ts /\ ~ In TErr ts -> ~ In TMatchEnd (t :: ts) /\ ~ In TErr (t :: ts)).
  { intros t ts N1 N2 [N3 N4]. cbn. split; intros [X|X]; auto. }
  assert (Z : ~ In TMatchEnd (@nil token) /\ ~ In TErr (@nil token)) by easy.
  destruct s as [|c r]; [easy|]. destruct (special c) eqn:Sp.
  - cbn [lex_block]. repeat match goal with |- context [if ?b then _ else _] => destruct b end; try (apply C; [discriminate|discriminate|]; apply IH); try apply IH.
    all: try (apply C; [discriminate|discriminate|]; apply C; [discriminate|discriminate|easy]).
    + destruct (span is_ident_char (c :: r)) as [w r']. apply C; [| |apply IH]; unfold keyword_or_ident; now repeat destruct (str_eqb w _).
    + destruct (lex_number (c :: r)) as [t r'] eqn:E. apply number_complete in E as [->|(m & -> & Q)]; (apply C; [discriminate|discriminate|apply IH]).
  - rewrite lex_plain by easy. unfold plain_step. destruct (is_ident_start c).
    + destruct (span is_ident_char (c :: r)) as [w r']. apply C; [| |apply IH]; unfold keyword_or_ident; now repeat destruct (str_eqb w _).
    + destruct (is_dec c).
      * destruct (lex_number (c :: r)) as [t r'] eqn:E. apply number_complete in E as [->|(m & -> & Q)]; (apply C; [discriminate|discriminate|apply IH]).
      * destruct (is_ascii_ws c && strip); [apply IH|]. apply C; [discriminate|discriminate|]. apply C; [discriminate|discriminate|easy].
Qed.
Lemma toks_no b : ~ In TMatchEnd (block_toks b) /\ ~ In TErr (block_toks b) /\ no_lf (block_toks b).
Proof.
  unfold block_toks. destruct (strip_prefix (of_string "#") b) as [r|].
  - destruct (block_no_end (S (length r)) true true r) as [A B]. pose proof (block_no_lf (S (length r)) true true r) as C. unfold no_lf in *. cbn [In]. splits; intros [X|X]; easy.
  - destruct (block_no_end (S (length b)) false true b) as [A B]. pose proof (block_no_lf (S (length b)) false true b) as C. now splits.
Qed.
Lemma block_tokens_app ts r : ~ In TMatchEnd ts -> ~ In TErr ts -> no_lf ts -> Forall ok_tok ts -> block_tokens (ts ++ TMatchEnd :: r) = Some (ts ++ [TMatchEnd], r).
Proof.
  induction ts as [|t ts IH]; intros A B C F; [reflexivity|]. inversion F; subst.
  assert (IH' : block_tokens (ts ++ TMatchEnd :: r) = Some (ts ++ [TMatchEnd], r)) by (apply IH; auto; [| |unfold no_lf in *]; intros X; [apply A|apply B|apply C]; now right).
  cbn [app]. destruct t; cbn [block_tokens]; rewrite ?IH'; try reflexivity; exfalso; first [apply A; now left | apply B; now left | apply C; now left | now apply H1].
Qed.
Lemma block_tokens_bad ts r : ~ In TMatchEnd ts -> In TBad ts -> block_tokens (ts ++ r) = None.
Proof.
  induction ts as [|t ts IH]; intros A I0; [easy|]. destruct I0 as [->|I]; [reflexivity|]. cbn [app].
  assert (E : block_tokens (ts ++ r) = None) by (apply IH; auto; intros X; apply A; now right).
  destruct t; cbn [block_tokens]; rewrite ?E; try reflexivity. exfalso. apply A. now left.
Qed.
Lemma block_says_iff b m : block_says b m <-> Forall ok_tok (block_toks b) /\ parse_match (TMatchStart :: block_toks b ++ [TMatchEnd]) = Some m.
Proof.
  assert (Bad : forall l, Forall ok_tok l -> ~ In TBad l).
  { intros l F I. rewrite Forall_forall in F. now apply (F _ I). }
  rewrite match_spec. split.
  - intros [s ts x Sp D|s ts x N Sp D].
    + apply spelt_lex with (n := S (length s)) in Sp; [|lia]. assert (E : block_toks (of_string "#" ++ s) = THash :: ts) by (unfold block_toks; cbn; cbn in Sp; now rewrite Sp).
      rewrite E. split; [|exact D]. apply d_match_ok in D. inversion D as [|? ? _ D1]; subst. inversion D1 as [|? ? D2 D3]; subst. apply Forall_app in D3 as [D3 _]. now constructor.
    + apply spelt_lex with (n := S (length s)) in Sp; [|lia]. assert (E : block_toks s = ts).
      { unfold block_toks. rewrite (proj2 (strip_none _ _) N). exact Sp. }
      rewrite E. split; [|exact D]. apply d_match_ok in D. inversion D as [|? ? _ D1]; subst. apply Forall_app in D1 as [D1 _]. exact D1.
  - intros [F D]. unfold block_toks in *. destruct (strip_prefix (of_string "#") b) as [r|] eqn:E.
    + apply Script_Proofs.strip_prefix_spec in E as ->. inversion F as [|? ? _ F']; subst. eapply bs_numeric; [|exact D]. apply lex_spelt; [lia|now apply Bad].
    + apply strip_none in E. eapply bs_other; [exact E| |exact D]. apply lex_spelt; [lia|now apply Bad].
Qed.
(** ** Patterns *)
Lemma parse_block n b r : parse_parts (S n) (TMatchStart :: block_toks b ++ TMatchEnd :: r) =
  if existsb (fun t => match t with TBad => true | _ => false end) (block_toks b) then None
  else match parse_match (TMatchStart :: block_toks b ++ [TMatchEnd]) with
       | Some m => match parse_parts n r with Some (l, r') => Some (QMatch m :: l, r') | None => None end
       | None => None
       end.
Proof.
  destruct (toks_no b) as (A & B & C). cbn [parse_parts]. destruct (existsb _ (block_toks b)) eqn:E.
  - apply existsb_exists in E as (t & I & E). destruct t; try discriminate. now rewrite block_tokens_bad.
  - rewrite block_tokens_app; auto. apply Forall_forall. intros t I ->. assert (X : existsb (fun t => match t with TBad => true | _ => false end) (block_toks b) = true) by (apply existsb_exists; now exists TBad). congruence.
Qed.
Lemma drop_inv l k : drop_blank l k <-> (exists s, blank s /\ l = k ++ [Text s]) \/ ((forall qs s, l = qs ++ [Text s] -> ~ blank s) /\ k = l).
Proof.
  split.
  - intros [ps s B|ps K]; [left; eauto|now right].
  - intros [(s & B & ->)|[K ->]]; [now apply dbl_blank|now apply dbl_keep].
Qed.
Lemma drop_cons p r ps : (forall s, p <> Text s) \/ r <> [] -> drop_blank (p :: r) ps <-> exists r', drop_blank r r' /\ ps = p :: r'.
Proof.
  intros N. rewrite drop_inv. split.
  - intros [(s & B & E)|[K ->]].
    + destruct ps as [|q qs]; cbn in E.
      * injection E as -> ->. destruct N as [N|N]; [now destruct (N s)|easy].
      * injection E as <- ->. exists qs. split; [now apply dbl_blank|easy].
    + exists r. split; [|easy]. apply dbl_keep. intros qs s -> B. apply (K (p :: qs) s eq_refl B).
  - intros (r' & H & ->). apply drop_inv in H as [(s & B & ->)|[K ->]].
    + left. exists s. now split.
    + right. split; [|easy]. intros qs s E B. destruct qs as [|q qs]; cbn in E.
      * injection E as -> ->. destruct N as [N|N]; [now destruct (N s)|easy].
      * injection E as -> ->. apply (K qs s eq_refl B).
Qed.
Lemma drop_nil ps : drop_blank [] ps <-> ps = [].
Proof.
  rewrite drop_inv. split; [intros [(s & B & E)|[_ ->]]; [now destruct ps|easy]|]. intros ->. right. split; [|easy]. intros qs s E. now destruct qs.
Qed.
Lemma drop_text s ps : drop_blank [Text s] ps <-> (blank s /\ ps = []) \/ (~ blank s /\ ps = [Text s]).
Proof.
  rewrite drop_inv. split.
  - intros [(t & B & E)|[K ->]].
    + destruct ps as [|q qs]; [injection E as ->; auto|]. destruct qs; discriminate.
    + right. split; [|easy]. exact (K [] s eq_refl).
  - intros [[B ->]|[B ->]]; [left; now exists s|]. right. split; [|easy]. intros [|q qs] t E; [injection E as <-; easy|]. destruct qs; discriminate.
Qed.
Lemma ascii_blank_spec c : is_ascii_ws c = true <-> ascii_blank [c].
Proof.
  rewrite gap_spec. unfold ascii_blank, indent_char. split; [intros H; constructor; [tauto|constructor]|intros H; inversion H; tauto].
Qed.
Definition good_first (first : bool) (ps : list piece) : Prop := match ps with Text s :: _ => s <> [] /\ (first = true -> ascii_solid s) | _ => True end.
Lemma strip_solid s : ascii_solid s -> strip_space s = s.
Proof.
  intros H. destruct s as [|c s]; [reflexivity|]. cbn. destruct (N.eqb_spec c 32) as [->|]; [|reflexivity]. exfalso. apply (H _ _ eq_refl). apply ascii_blank_spec. reflexivity.
Qed.
Lemma before_good first s : s <> [] -> (first = true -> ascii_solid s) -> literal_before first s = [TRaw s].
Proof.
  intros N H. destruct s as [|c s]; [easy|]. unfold literal_before. destruct first; [|now rewrite andb_false_r]. specialize (H eq_refl).
  rewrite (strip_solid _ H). cbn [forallb]. destruct (is_ascii_ws c) eqn:E; [|reflexivity]. exfalso. apply (H _ _ eq_refl). now apply ascii_blank_spec.
Qed.
Lemma after_good first s : (first = true -> ascii_solid s) -> (blank s /\ literal_after first s = []) \/ (~ blank s /\ literal_after first s = [TRaw s]).
Proof.
  intros H. unfold literal_after. destruct (trim s) eqn:E.
  - left. split; [now apply Script_Proofs.trim_nil|reflexivity].
  - right. split; [intros B; apply Script_Proofs.trim_nil in B; congruence|]. destruct first; [now rewrite strip_solid by auto|reflexivity].
Qed.
Definition tight (ps : list piece) : Prop := forall s, In (Text s) ps -> s <> [].
Lemma Forall2_cons_l {A B} (R : A -> B -> Prop) a l m : Forall2 R (a :: l) m <-> exists b m', m = b :: m' /\ R a b /\ Forall2 R l m'.
Proof. split; [intros H; inversion H; subst; eauto|intros (b & m' & -> & H & F); now constructor]. Qed.
Lemma parts_render : forall ps first n qs r, tight ps -> good_first first ps -> length (render first ps) < n ->
  parse_parts n (render first ps) = Some (qs, r) <-> r = [] /\ exists ps', drop_blank ps ps' /\ Forall2 piece_is ps' qs.
Proof.
  induction ps as [|p ps IH]; intros first n qs r T Gf L; (destruct n as [|n]; [lia|]).
  { cbn. split; [intros [= <- <-]; split; [easy|]; exists []; split; [now apply drop_nil|constructor]|]. intros (-> & ps' & D & F). apply drop_nil in D as ->. now inversion F. }
  assert (T' : tight ps) by (intros s I; apply T; now right).
  assert (G' : good_first false ps) by (destruct ps as [|[s| |] ps]; cbn; auto; split; [apply T'; now left|discriminate]).
  assert (Step : forall p0 q0 (o : option (list part * list token)), (forall x, piece_is p0 x <-> x = q0) ->
    (forall s, p0 <> Text s) \/ ps <> [] ->
    (forall qs r, o = Some (qs, r) <-> r = [] /\ exists ps', drop_blank ps ps' /\ Forall2 piece_is ps' qs) ->
    (match o with Some (l, r0) => Some (q0 :: l, r0) | None => None end = Some (qs, r) <-> r = [] /\ exists ps', drop_blank (p0 :: ps) ps' /\ Forall2 piece_is ps' qs)).
  { intros p0 q0 o Q N H. split.
    - destruct o as [[l r0]|]; [|discriminate]. intros [= <- <-]. destruct (proj1 (H l r0) eq_refl) as (-> & ps' & D & F). split; [easy|].
      exists (p0 :: ps'). split; [apply drop_cons; eauto|]. constructor; [now apply Q|easy].
    - intros (-> & ps' & D & F). apply drop_cons in D as (r' & D & ->); auto. apply Forall2_cons_l in F as (b & m' & -> & Qb & F). apply Q in Qb as ->.
      rewrite (proj2 (H m' [])) by eauto. reflexivity. }
  destruct p as [s|b|b].
  - destruct Gf as [Ns So]. destruct ps as [|p' ps].
    + cbn [render] in *. destruct (after_good first s So) as [[B E]|[B E]]; rewrite E in *; cbn [parse_parts].
      * split; [intros [= <- <-]; split; [easy|]; exists []; split; [apply drop_text; auto|constructor]|]. intros (-> & ps' & D & F). apply drop_text in D as [[_ ->]|[X _]]; [now inversion F|easy].
      * destruct n as [|n]; [cbn in L; lia|]. cbn [parse_parts]. split.
        -- intros [= <- <-]. split; [easy|]. exists [Text s]. split; [apply drop_text; auto|repeat constructor].
        -- intros (-> & ps' & D & F). apply drop_text in D as [[X _]|[_ ->]]; [easy|]. apply Forall2_cons_l in F as (q & m & -> & Q & F). inversion F; subst. inversion Q; subst. reflexivity.
    + assert (R0 : render first (Text s :: p' :: ps) = literal_before first s ++ render false (p' :: ps)) by reflexivity. rewrite R0 in *.
      rewrite before_good in * by auto. cbn [app] in *. cbn [parse_parts]. cbn [length] in L. apply Step.
      * intros x. split; [intros Q; now inversion Q|intros ->; constructor].
      * right. discriminate.
      * intros qs' r'. apply IH; auto. lia.
  - cbn [render] in *. cbn [length] in L. cbn [parse_parts]. apply Step.
    + intros x. split; [intros Q; inversion Q as [|? t Tr|]; subst; f_equal; now apply Script_Proofs.trimmed_spec|intros ->; constructor; now apply Script_Proofs.trimmed_spec].
    + left. discriminate.
    + intros qs' r'. apply IH; auto. lia.
  - change (render first (Block b :: ps)) with (TMatchStart :: block_toks b ++ TMatchEnd :: render false ps) in *. rewrite parse_block.
    cbn [length] in L. rewrite app_length in L. cbn [length] in L.
    assert (Inv : forall m, block_says b m -> existsb (fun t => match t with TBad => true | _ => false end) (block_toks b) = false).
    { intros m H. apply block_says_iff in H as [F _]. destruct (existsb _ _) eqn:X; [|easy]. apply existsb_exists in X as (t & I & X). rewrite Forall_forall in F. apply F in I. destruct t; try discriminate. now destruct I. }
    assert (No : (forall m, ~ block_says b m) -> None = Some (qs, r) <-> r = [] /\ exists ps', drop_blank (Block b :: ps) ps' /\ Forall2 piece_is ps' qs).
    { intros H. split; [discriminate|]. intros (-> & ps' & D & F). apply drop_cons in D as (r' & D & ->); [|left; discriminate].
      apply Forall2_cons_l in F as (q & m & -> & Q & F). inversion Q as [| |? m0 Bm]; subst. now apply H in Bm. }
    destruct (existsb _ (block_toks b)) eqn:X.
    + apply No. intros m H. apply Inv in H. congruence.
    + assert (Ok : Forall ok_tok (block_toks b)).
      { apply Forall_forall. intros t I ->. assert (Y : existsb (fun t => match t with TBad => true | _ => false end) (block_toks b) = true) by (apply existsb_exists; now exists TBad). congruence. }
      destruct (parse_match _) as [m|] eqn:M.
      * apply Step.
        -- intros x. split; [intros Q; inversion Q as [| |? m0 Bm]; subst; f_equal; apply block_says_iff in Bm as [_ Bm]; congruence|intros ->; constructor; now apply block_says_iff].
        -- left. discriminate.
        -- intros qs' r'. apply IH; auto. lia.
      * apply No. intros m H. apply block_says_iff in H as [_ H]. congruence.
Qed.
