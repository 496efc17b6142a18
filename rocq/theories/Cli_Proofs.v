(** The lexer and the grammar of numeric definitions; prefixes. *)
From Coq Require Import String Sorted Permutation.
From Verif Require Import Base Num_Model Num_Spec Num_Proofs Env_Model Gram_Model Gram_Proofs Script_Model Parse_Model Parse_Spec Pat_Spec Sum_Spec.
From Verif Require Import Pat_Proofs Pat_Block Sum_Props Cli_Model Cli_Spec.
From Verif Require Map_Model Script_Proofs BoolExpr_Proofs BoolExpr_Spec.
Open Scope string_scope.
Open Scope list_scope.
Open Scope nat_scope.
Notation length := List.length.
Ltac splits := repeat match goal with |- _ /\ _ => split end.

(** ** Text definitions *)
Lemma valid_name_spec s : is_valid_name s = true <-> word s.
Proof.
  destruct s as [|c r]; cbn.
  - split; [discriminate|]. intros (c & r & E & _). discriminate.
  - rewrite andb_true_iff, ident_start_spec, forallb_forall. split.
    + intros [L F]. exists c, r. splits; auto. apply Forall_forall. intros x I. apply ident_char_spec. auto.
    + intros (c' & r' & [= <- <-] & L & F). split; auto. intros x I. rewrite Forall_forall in F. apply ident_char_spec. auto.
Qed.
Lemma split_once_spec c s a b : split_once c s = Some (a, b) <-> s = a ++ c :: b /\ ~ In c a.
Proof.
  revert a b. induction s as [|d s IH]; intros a b; cbn.
  - split; [discriminate|]. intros [E _]. now destruct a.
  - destruct (N.eqb_spec d c) as [->|N].
    + split.
      * intros [= <- <-]. split; [reflexivity|easy].
      * intros [E F]. destruct a as [|x a]; [now injection E as <-|]. injection E as <- _. exfalso. apply F. now left.
    + destruct (split_once c s) as [[x y]|] eqn:E.
      * destruct (proj1 (IH x y) eq_refl) as [-> F]. split.
        -- intros [= <- <-]. split; [reflexivity|]. intros [->|I]; auto.
        -- intros [E' F']. destruct a as [|z a]; [injection E' as ->; easy|]. injection E' as <- E'.
           assert (X : Some (x, y) = Some (a, b)) by (apply IH; split; [easy|]; intros I; apply F'; now right). now injection X as -> ->.
      * split; [discriminate|]. intros [E' F']. destruct a as [|z a]; [injection E' as ->; easy|]. injection E' as <- E'.
        assert (X : None = Some (a, b)) by (apply IH; split; [easy|]; intros I; apply F'; now right). discriminate.
Qed.
Lemma word_char_not c : word_char c -> c <> 61%N /\ c <> 35%N /\ c <> 36%N /\ c <> 64%N.
Proof. unfold word_char, letter, digit. lia. Qed.
Lemma word_chars w : word w -> Forall word_char w.
Proof. intros (c & r & -> & L & F). constructor; [now left|easy]. Qed.
Lemma word_not_in w c : word w -> ~ word_char c -> ~ In c w.
Proof. intros W N I. apply word_chars in W. rewrite Forall_forall in W. auto. Qed.
Lemma text_definition_spec s n v : text_definition s = Some (n, v) <-> exists x t, defines_text s x t /\ n = User x /\ v = VStr t.
Proof.
  assert (Q : ~ word_char 61) by (intros H; apply word_char_not in H; tauto).
  unfold text_definition. split.
  - destruct s as [|c s]; [discriminate|]. destruct (split_once 61 (c :: s)) as [[k r]|] eqn:E; [|discriminate].
    apply split_once_spec in E as [E F]. destruct k as [|d k]; [discriminate|]. destruct (is_valid_name (d :: k)) eqn:V; [|discriminate].
    apply valid_name_spec in V as W. intros H. exists (d :: k), r. destruct W as (c' & r' & E' & L & Fr). injection E' as <- <-.
    assert (N : name_of (d :: k) = Some (User (d :: k))).
    { unfold name_of. assert (N1 : strip_prefix (of_string "$") (d :: k) = None).
      { apply strip_none. intros (q & X). injection X as -> _. cbn in L. unfold letter in L. lia. }
      assert (N2 : strip_prefix (of_string "@") (d :: k) = None).
      { apply strip_none. intros (q & X). injection X as -> _. cbn in L. unfold letter in L. lia. }
      now rewrite N1, N2, V. }
    rewrite N in H. cbn in H. injection H as <- <-. splits; auto. split; [now exists d, k|]. rewrite E. reflexivity.
  - intros (x & t & [W ->] & -> & ->). destruct W as (c & r & -> & L & F). pose proof (word_not_in (c :: r) 61 ltac:(now exists c, r) Q) as NI.
    replace (split_once 61 ((c :: r) ++ of_string "=" ++ t)) with (Some (c :: r, t)) by (symmetry; apply split_once_spec; now split).
    assert (V : is_valid_name (c :: r) = true) by (apply valid_name_spec; now exists c, r).
    cbn [app]. rewrite V. unfold name_of. assert (N1 : strip_prefix (of_string "$") (c :: r) = None).
    { apply strip_none. intros (q & X). injection X as -> _. unfold letter in L. lia. }
    assert (N2 : strip_prefix (of_string "@") (c :: r) = None).
    { apply strip_none. intros (q & X). injection X as -> _. unfold letter in L. lia. }
    now rewrite N1, N2, V.
Qed.

(** ** Words *)
Lemma cli_word_spec w t : reads_as w t <-> cli_word w = t.
Proof.
  split.
  - intros [x u I ->|N].
    + cbn [functions In] in I. repeat destruct I as [[= <- <-]|I]; try reflexivity. easy.
    + unfold cli_word. repeat match goal with |- context [str_eqb w ?x] => let H := fresh "H" in destruct (str_eqb w x) eqn:H;
        [apply str_eqb_eq in H; subst w; exfalso; (eapply N; [|reflexivity]); cbn [functions In]; tauto|] end. reflexivity.
  - intros <-. unfold cli_word. repeat match goal with |- context [str_eqb w ?x] => let H := fresh "H" in destruct (str_eqb w x) eqn:H;
        [apply str_eqb_eq in H; subst w; (eapply ra_function; [|reflexivity]); cbn [functions In]; tauto|] end.
    apply ra_name. intros x t I ->. cbn [functions In] in I. repeat destruct I as [[= <- <-]|I]; try discriminate. easy.
Qed.
Lemma cli_number_pos ds n s : ds <> [] -> value_is 10 ds n -> (n < 2 ^ 127)%Z -> not_next digit s -> cli_number (ds ++ s) = Some (n, s).
Proof.
  intros N V L D. unfold cli_number. pose proof (value_dec _ _ V) as F. destruct ds as [|c ds]; [easy|]. cbn [app].
  inversion F as [|? ? Dc _]; subst. rewrite (proj2 (N.eqb_neq c 45)) by (unfold digit in Dc; lia).
  change (c :: ds ++ s) with ((c :: ds) ++ s). rewrite (span_word is_dec digit) by auto using dec_spec. cbn [app].
  rewrite (radix_reads_pos 10 (c :: ds) n); auto using dec_no_sign. lia.
Qed.
Lemma value_nonneg ds n : value_is 10 ds n -> (0 <= n)%Z.
Proof. intros V. apply valacc_value_gen in V; [|lia]. apply valacc_ge_gen in V; lia. Qed.
Lemma cli_number_neg ds n s : ds <> [] -> value_is 10 ds n -> (n <= 2 ^ 127)%Z -> not_next digit s -> cli_number (of_string "-" ++ ds ++ s) = Some ((- n)%Z, s).
Proof.
  intros N V L D. unfold cli_number. pose proof (value_dec _ _ V) as F. pose proof (value_nonneg _ _ V) as P.
  change (of_string "-" ++ ds ++ s) with (45%N :: ds ++ s). cbn [N.eqb Pos.eqb]. rewrite (span_word is_dec digit) by auto using dec_spec.
  replace (from_str_radix 10 ([45%N] ++ ds)) with (@inl Z int_err (- n)%Z); [reflexivity|]. symmetry. apply from_str_radix_spec; auto.
  apply rr_neg; auto. unfold is_i128. lia.
Qed.
Lemma cli_number_inv s n r : cli_number s = Some (n, r) ->
  (exists ds, s = ds ++ r /\ ds <> [] /\ value_is 10 ds n /\ (n < 2 ^ 127)%Z /\ not_next digit r) \/
  (exists ds m, s = of_string "-" ++ ds ++ r /\ ds <> [] /\ value_is 10 ds m /\ n = (- m)%Z /\ (m <= 2 ^ 127)%Z /\ not_next digit r).
Proof.
  unfold cli_number. destruct s as [|c s]; [discriminate|]. destruct (N.eqb_spec c 45) as [->|Nc].
  - destruct (span is_dec s) as [ds r'] eqn:E. apply (span_inv _ digit) in E as (-> & F & D); [|apply dec_spec].
    destruct (from_str_radix 10 ([45%N] ++ ds)) as [m|] eqn:R; [|discriminate]. intros [= -> ->]. right.
    apply from_str_radix_spec in R; auto. inversion R as [sg ds' v Sg Nd V I E|ds' v Nd V I E]; subst.
    + destruct Sg as [-> | ->]; cbn in E; [|discriminate]. subst ds'. apply value_dec in V. inversion V as [|? ? X _]; subst. unfold digit in X. lia.
    + exists ds, v. splits; auto. unfold is_i128 in I. lia.
  - destruct (span is_dec (c :: s)) as [ds r'] eqn:E. apply (span_inv _ digit) in E as (E & F & D); [|apply dec_spec]. cbn [app].
    destruct (from_str_radix 10 ds) as [m|] eqn:R; [|discriminate]. intros [= -> ->]. left.
    apply radix_pos in R as (A & V & L); [|lia|now apply dec_no_sign]. exists ds. now splits.
Qed.

Definition cspecial (c : N) : bool := existsb (N.eqb c) [32; 9; 40; 41; 35; 36; 37; 64; 44; 46; 58; 43; 45; 61]%N.
Lemma clex_plain k c r : cspecial c = false -> cli_lex (S k) (c :: r) =
  if is_ident_start c then let '(w, r') := span is_ident_char (c :: r) in option_map (cons (CT (cli_word w))) (cli_lex k r')
  else if is_dec c then match cli_number (c :: r) with Some (n, r') => option_map (cons (CT (TNum n))) (cli_lex k r') | None => None end
  else None.
Proof.
  intros S0. unfold cspecial in S0. cbn [existsb] in S0. repeat (apply orb_false_iff in S0 as [? S0]).
  cbn [cli_lex]. repeat match goal with H : N.eqb c _ = false |- _ => rewrite H; clear H end. cbn [orb]. reflexivity.
Qed.
Lemma letter_cplain c : letter c -> cspecial c = false.
Proof. intros L. destruct (cspecial c) eqn:E; [|easy]. unfold cspecial in E. apply existsb_exists in E as (d & I & E). apply N.eqb_eq in E as ->.
  cbn in I. unfold letter in L. repeat destruct I as [<-|I]; try lia. Qed.
Lemma digit_cplain c : digit c -> cspecial c = false.
Proof. intros L. destruct (cspecial c) eqn:E; [|easy]. unfold cspecial in E. apply existsb_exists in E as (d & I & E). apply N.eqb_eq in E as ->.
  cbn in I. unfold digit in L. repeat destruct I as [<-|I]; try lia. Qed.
Lemma next_is_false p (Q : N -> Prop) s : (forall c, p c = true <-> Q c) -> not_next Q s -> next_is p s = false.
Proof. intros H N. destruct s as [|c s]; [reflexivity|]. cbn. destruct (p c) eqn:E; [|easy]. apply H in E. now apply (N c s) in E. Qed.
Lemma next_is_not p (Q : N -> Prop) s : (forall c, p c = true <-> Q c) -> next_is p s = false -> not_next Q s.
Proof. intros H N c r -> X. apply H in X. cbn in N. congruence. Qed.
Lemma eq61 c : N.eqb 61 c = true <-> c = 61%N.
Proof. rewrite N.eqb_eq. split; congruence. Qed.
Lemma clex_mark k x t s : In (x, t) marks -> cli_lex (S k) (of_string x ++ s) = option_map (cons (CT t)) (cli_lex k s).
Proof. cbn [marks In]. intros H. repeat destruct H as [H|H]; try (injection H as <- <-; reflexivity). easy. Qed.
Lemma spelled_lex s ts : spelled s ts -> forall n, length s < n -> cli_lex n s = Some ts.
Proof.
  induction 1 as [|c s ts C H IH|x t s ts I H IH|s ts N H IH|s ts N H IH|w t s ts W K N H IH|ds m s ts N V L D H IH|ds m s ts N V L D H IH]; intros n Ln;
    (destruct n as [|n]; [lia|]).
  - reflexivity.
  - cbn in Ln. destruct C as [-> | ->]; cbn; apply IH; lia.
  - rewrite (clex_mark _ _ _ _ I). rewrite IH; [reflexivity|]. rewrite app_length in Ln.
    assert (1 <= length (of_string x)); [|lia]. cbn [marks In] in I. repeat destruct I as [[= <- _]|I]; cbn; try lia.
  - cbn in Ln. change (of_string "-" ++ s) with (45%N :: s). cbn [cli_lex N.eqb Pos.eqb orb]. rewrite (next_is_false is_dec digit) by auto using dec_spec. rewrite IH by lia. reflexivity.
  - cbn in Ln. change (of_string "=" ++ s) with (61%N :: s). cbn [cli_lex N.eqb Pos.eqb orb]. rewrite (next_is_false (N.eqb 61) (fun c => c = 61%N)) by auto using eq61. rewrite IH by lia. reflexivity.
  - apply cli_word_spec in K as <-. pose proof (word_chars _ W) as F. destruct W as (c & r & -> & Lc & _). cbn [app]. rewrite clex_plain by now apply letter_cplain.
    rewrite (proj2 (ident_start_spec c) Lc). change (c :: r ++ s) with ((c :: r) ++ s). rewrite (span_word is_ident_char word_char) by auto using ident_char_spec.
    rewrite IH; [reflexivity|]. cbn [app length] in Ln. rewrite app_length in Ln. lia.
  - pose proof (value_dec _ _ V) as F. pose proof (cli_number_pos _ _ _ N V L D) as E. destruct ds as [|c ds]; [easy|]. inversion F as [|? ? Dc _]; subst.
    cbn [app] in *. rewrite clex_plain by now apply digit_cplain. rewrite digit_not_letter by easy. rewrite (proj2 (dec_spec c) Dc), E.
    rewrite IH; [reflexivity|]. cbn [length] in Ln. rewrite app_length in Ln. lia.
  - pose proof (value_dec _ _ V) as F. pose proof (cli_number_neg _ _ _ N V L D) as E. destruct ds as [|c ds]; [easy|]. inversion F as [|? ? Dc _]; subst.
    change (of_string "-" ++ (c :: ds) ++ s) with (45%N :: c :: ds ++ s) in *. cbn [cli_lex N.eqb Pos.eqb orb]. cbn [next_is]. rewrite (proj2 (dec_spec c) Dc), E.
    rewrite IH; [reflexivity|]. cbn [length] in Ln. rewrite app_length in Ln. lia.
Qed.
Lemma map_some {A B} (f : A -> B) o y : option_map f o = Some y -> exists x, o = Some x /\ y = f x.
Proof. destruct o; cbn; [intros [= <-]; eauto|discriminate]. Qed.
Lemma spelled_number s n r ts : cli_number s = Some (n, r) -> spelled r ts -> spelled s (CT (TNum n) :: ts).
Proof.
  intros E H. apply cli_number_inv in E as [(ds & -> & N & V & L & D)|(ds & m & -> & N & V & -> & L & D)]; [now apply sl_num|now apply sl_neg].
Qed.
Lemma lex_spelled n : forall s ts, cli_lex n s = Some ts -> spelled s ts.
Proof.
  induction n as [|n IH]; intros s ts E; [discriminate|]. destruct s as [|c r]; [injection E as <-; constructor|].
  assert (Num : forall ts, match cli_number (c :: r) with Some (m, r') => option_map (cons (CT (TNum m))) (cli_lex n r') | None => None end = Some ts -> spelled (c :: r) ts).
  { intros us X. destruct (cli_number (c :: r)) as [[m r']|] eqn:M; [|discriminate]. apply map_some in X as (vs & X & ->). eapply spelled_number; eauto. }
  destruct (cspecial c) eqn:Sp.
  - unfold cspecial in Sp. apply existsb_exists in Sp as (d & I & Ed). apply N.eqb_eq in Ed as ->.
    assert (One : forall (x : string) t, In (x, t) marks -> of_string x = [d] -> spelled (d :: r) ts).
    { intros x t J Ex. pose proof (clex_mark n x t r J) as M. rewrite Ex in M. cbn [app] in M. rewrite M in E. apply map_some in E as (us & E & ->).
      change (d :: r) with ([d] ++ r). rewrite <- Ex. apply sl_mark; [easy|]. now apply IH. }
    cbn [In] in I.
    destruct I as [<-|I]; [apply sl_gap; [now left|]; now apply IH|].
    destruct I as [<-|I]; [apply sl_gap; [now right|]; now apply IH|].
    destruct I as [<-|I]; [apply (One "(" TLParen); [cbn; tauto|reflexivity]|].
    destruct I as [<-|I]; [apply (One ")" TRParen); [cbn; tauto|reflexivity]|].
    destruct I as [<-|I]; [apply (One "#" THash); [cbn; tauto|reflexivity]|].
    destruct I as [<-|I]; [apply (One "$" TDollar); [cbn; tauto|reflexivity]|].
    destruct I as [<-|I]; [apply (One "%" TPercent); [cbn; tauto|reflexivity]|].
    destruct I as [<-|I]; [apply (One "@" TAt); [cbn; tauto|reflexivity]|].
    destruct I as [<-|I]; [apply (One "," TComma); [cbn; tauto|reflexivity]|].
    destruct I as [<-|I]; [apply (One "." TDot); [cbn; tauto|reflexivity]|].
    destruct I as [<-|I]; [apply (One ":" TColon); [cbn; tauto|reflexivity]|].
    destruct I as [<-|I]; [apply (One "+" TPlus); [cbn; tauto|reflexivity]|].
    destruct I as [<-|I].
    + cbn [cli_lex N.eqb Pos.eqb orb] in E. destruct (next_is is_dec r) eqn:X; [now apply Num|]. apply map_some in E as (us & E & ->).
      apply (sl_minus r); [|now apply IH]. now apply (next_is_not is_dec digit r dec_spec).
    + destruct I as [<-|[]]. cbn [cli_lex N.eqb Pos.eqb orb] in E. destruct (next_is (N.eqb 61) r) eqn:X.
      * destruct r as [|c' r']; [discriminate|]. cbn in X. apply eq61 in X as ->. apply map_some in E as (us & E & ->). apply (sl_mark "==" TEquals r'); [cbn; tauto|]. now apply IH.
      * apply map_some in E as (us & E & ->). apply (sl_equal r); [|now apply IH]. now apply (next_is_not (N.eqb 61) _ r eq61).
  - rewrite clex_plain in E by easy. destruct (is_ident_start c) eqn:L.
    + destruct (span is_ident_char (c :: r)) as [w r'] eqn:W. pose proof W as W'. apply (span_inv _ word_char) in W' as (E' & F & N); [|apply ident_char_spec].
      rewrite E'. apply map_some in E as (us & E & ->). apply sl_word; auto; [|now apply cli_word_spec].
      destruct w as [|c' w]; cbn in E'.
      * subst r'. exfalso. apply (N c r eq_refl). left. now apply ident_start_spec.
      * injection E' as <- _. exists c, w. inversion F; subst. splits; auto. now apply ident_start_spec.
    + destruct (is_dec c); [now apply Num|discriminate].
Qed.

(** ** The grammar *)
Lemma plain_tokens_spec l a : plain_tokens l = Some a <-> l = map CT a.
Proof.
  revert a. induction l as [|[t|] l IH]; intros a; cbn.
  - split; [intros [= <-]; reflexivity|]. now destruct a.
  - split; [intros H; apply map_some in H as (b & H & ->); apply IH in H as ->; reflexivity|].
    destruct a as [|u a]; [discriminate|]. intros [= <- H]. apply IH in H. now rewrite H.
  - split; [discriminate|]. now destruct a.
Qed.
Lemma before_equal_spec l h r : before_equal l = Some (h, r) <-> l = map CT h ++ CEqual :: r.
Proof.
  revert h r. induction l as [|[t|] l IH]; intros h r; cbn.
  - split; [discriminate|]. now destruct h.
  - split.
    + destruct (before_equal l) as [[a b]|]; [|discriminate]. intros [= <- <-]. rewrite (proj1 (IH a b) eq_refl). reflexivity.
    + destruct h as [|u h]; [discriminate|]. cbn. intros [= <- H]. apply IH in H. now rewrite H.
  - split; [intros [= <- <-]; reflexivity|]. destruct h; [now intros [= ->]|discriminate].
Qed.
Lemma skip_hash_inv ts : exists h, c_prefix h /\ ts = h ++ skip_hash ts.
Proof. destruct ts as [|[] ts]; cbn; try (exists []; split; [constructor|reflexivity]). exists [THash]. split; [constructor|reflexivity]. Qed.
Lemma skip_precision_inv ts r : skip_precision ts = Some r -> exists p, c_precision p /\ ts = p ++ r.
Proof.
  destruct ts as [|[] ts]; cbn; try (intros [= <-]; exists []; split; [constructor|reflexivity]).
  destruct ts as [|[] ts]; try discriminate. destruct ((0 <=? n) && (n <=? 255))%Z eqn:R; [|discriminate]. intros [= <-]. exists [TDot; TNum n]. split; [constructor; lia|reflexivity].
Qed.
Lemma skip_specifier_inv ts r : skip_specifier ts = Some r -> exists t, c_specifier t /\ ts = t ++ r.
Proof.
  destruct ts as [|[] ts]; try (intros [= <-]; exists []; split; [constructor|reflexivity]).
  unfold skip_specifier. destruct (existsb _ _) eqn:Ex; [|discriminate]. intros [= <-]. apply existsb_exists in Ex as (x & I & Ex). apply str_eqb_eq in Ex as <-.
  cbn [map In] in I. repeat destruct I as [<-|I]; [| | | |easy]; eexists; (split; [constructor|reflexivity]).
Qed.
Lemma skip_format_spec ts w : skip_format ts = Some [TComma; TIdent w] <-> exists f, c_format f /\ f ++ [TComma; TIdent w] = TPercent :: ts.
Proof.
  split.
  - unfold skip_format. destruct (skip_precision (skip_hash ts)) as [r|] eqn:P; [|discriminate]. intros S0.
    destruct (skip_hash_inv ts) as (h & Hh & ->). apply skip_precision_inv in P as (p & Hp & P). apply skip_specifier_inv in S0 as (t & Ht & ->). rewrite P.
    exists (TPercent :: h ++ p ++ t). split; [now constructor|]. cbn [app]. now rewrite <- !app_assoc.
  - intros (f & [h p t Hh Hp Ht] & E). injection E as <-. rewrite <- !app_assoc. destruct Hh, Hp as [|n R], Ht; unfold skip_format; cbn [app skip_hash skip_precision]; try reflexivity.
    all: replace ((0 <=? n) && (n <=? 255))%Z with true by lia; reflexivity.
Qed.
Lemma definition_head_spec h w : definition_head h = Some w <-> h = [THash; TIdent w] \/ exists f, c_format f /\ h = THash :: f ++ [TComma; TIdent w].
Proof.
  unfold definition_head. split.
  - destruct h as [|[] h]; try discriminate. destruct h as [|[] h]; try discriminate.
    + destruct h; [|discriminate]. intros [= <-]. now left.
    + destruct (skip_format h) as [l|] eqn:E; [|discriminate]. destruct l as [|[] l]; try discriminate. destruct l as [|[] l]; try discriminate. destruct l; [|discriminate].
      intros [= ->]. apply skip_format_spec in E as (f & F & E). right. exists f. split; [easy|]. now rewrite E.
  - intros [-> | (f & F & ->)]; [reflexivity|]. assert (E : exists r, f ++ [TComma; TIdent w] = TPercent :: r) by (destruct F; cbn; eauto).
    destruct E as (r & E). rewrite E. assert (X : skip_format r = Some [TComma; TIdent w]) by (apply skip_format_spec; eauto). now rewrite X.
Qed.
Lemma numeric_spec l n e : parse_numeric l = Some (n, e) <-> c_numeric l n e.
Proof.
  unfold parse_numeric. split.
  - destruct (before_equal l) as [[h r]|] eqn:B; [|discriminate]. apply before_equal_spec in B as ->. destruct (definition_head h) as [w|] eqn:D; [|discriminate].
    destruct (plain_tokens r) as [a|] eqn:P; [|discriminate]. apply plain_tokens_spec in P as ->. intros H. apply map_some in H as (x & H & [= -> ->]). apply full_spec in H.
    apply definition_head_spec in D as [-> | (f & F & ->)]; [now apply cn_plain|]. cbn [map app]. rewrite map_app, <- app_assoc. now apply cn_format.
  - intros H. assert (X : exists h w a, l = map CT h ++ CEqual :: map CT a /\ n = User w /\ definition_head h = Some w /\ d_expr a e).
    { destruct H as [f w a e F D|w a e D].
      - exists (THash :: f ++ [TComma; TIdent w]), w, a. splits; auto; [|apply definition_head_spec; right; eauto]. cbn [map app]. rewrite map_app, <- app_assoc. reflexivity.
      - exists [THash; TIdent w], w, a. splits; auto. }
    destruct X as (h & w & a & -> & -> & Dh & D). rewrite (proj2 (before_equal_spec _ h (map CT a)) eq_refl), Dh, (proj2 (plain_tokens_spec _ a) eq_refl).
    apply full_spec in D. now rewrite D.
Qed.

(** forms and trees *)
Scheme tform_mut := Minimality for term_form Sort Prop
with sform_mut := Minimality for sum_form Sort Prop.
Combined Scheme form_mut from tform_mut, sform_mut.
Lemma form_tree : (forall a, term_form a -> exists e, d_sub a e) /\ (forall a, sum_form a -> exists e, d_expr a e).
Proof.
  apply form_mut.
  - intros n. eexists. apply ds_num.
  - intros n. eexists. apply ds_neg.
  - intros ws v N. eexists. apply ds_var. apply names_var. exact N.
  - intros ws _ (e & D). eexists. apply ds_paren. exact D.
  - intros f op a b F _ (x & X) _ (y & Y). eexists. apply ds_builtin. apply function_op in F. exact (db_op _ _ _ _ _ _ F X Y).
  - intros t _ (e & D). eexists. apply de_one. exact D.
  - intros a t _ (x & X) _ (y & Y). eexists. apply de_add; eauto.
  - intros a t _ (x & X) _ (y & Y). eexists. apply de_sub; eauto.
Qed.
Lemma tree_form :
  (forall a e, d_expr a e -> clean a -> sum_form a) /\ (forall a e, d_sub a e -> clean a -> term_form a) /\
  (forall a e, d_builtin a e -> clean a -> term_form a) /\ (forall a l, d_args a l -> True).
Proof.
  apply d_mut; auto.
  - intros a b x y _ IHa _ IHb C. apply clean_app in C as [Ca Cb]. apply clean_cons in Cb. apply sf_plus; auto.
  - intros a b x y _ IHa _ IHb C. apply clean_app in C as [Ca Cb]. apply clean_cons in Cb. apply sf_minus; auto.
  - intros a x _ IH C. apply sf_one. auto.
  - intros f a l x _ _ E C. rewrite (C f (or_introl eq_refl)) in E. discriminate.
  - intros n C. constructor.
  - intros n C. constructor.
  - intros a v D C. eapply tf_name. apply names_var. exact D.
  - intros a x _ IH C. apply tf_paren. apply IH. apply clean_cons in C. now apply clean_app in C.
  - intros t op a b x y B _ IHa _ IHb C. apply clean_cons, clean_cons in C. apply clean_app in C as [Ca Cb]. apply clean_cons in Cb. apply clean_app in Cb as [Cb _].
    apply (tf_fun t op); [now apply function_op|auto|auto].
Qed.
Lemma cli_ident w u : cli_word w = TIdent u -> forall l, from_call u l = None.
Proof.
  unfold cli_word. repeat match goal with |- context [str_eqb w ?x] => let H := fresh "H" in destruct (str_eqb w x) eqn:H; [discriminate|] end. intros [= <-] l.
  unfold from_call. destruct l as [|a [|b [|c l]]]; try reflexivity. rewrite H, H0, H1, H2, H3, H4. reflexivity.
Qed.
Lemma spelled_calls s ts : spelled s ts -> forall w, In (CT (TIdent w)) ts -> forall l, from_call w l = None.
Proof.
  induction 1 as [|c s ts C H IH|x t s ts I H IH|s ts N H IH|s ts N H IH|w t s ts W K N H IH|ds m s ts N V L D H IH|ds m s ts N V L D H IH]; intros u Iu; auto;
    try (destruct Iu as [E|Iu]; [try discriminate|now apply IH]).
  - easy.
  - cbn [marks In] in I. repeat destruct I as [[= <- <-]|I]; try discriminate. easy.
  - injection E as ->. apply cli_word_spec in K. now apply cli_ident with w.
Qed.
Lemma spelled_clean s f ts g : spelled s (f ++ map CT ts ++ g) -> clean ts.
Proof.
  intros H w I. apply (spelled_calls _ _ H). apply in_or_app. right. apply in_or_app. left. now apply in_map.
Qed.
Lemma format_spec f : c_format f <-> format_words (f ++ [TComma]).
Proof.
  split.
  - intros [h p t Hh Hp Ht]. exists h, p, t. splits; [cbn; now rewrite <- !app_assoc|destruct Hh; auto|destruct Hp; [now left|right; eauto]|].
    destruct Ht; [now left| | | |]; right; eexists; (split; [|reflexivity]); cbn; auto.
  - intros (h & p & t & E & Hh & Hp & Ht). replace (TPercent :: h ++ p ++ t ++ [TComma]) with ((TPercent :: h ++ p ++ t) ++ [TComma]) in E by (cbn; now rewrite <- !app_assoc).
    apply app_inj_tail in E as [-> _]. constructor; [destruct Hh as [-> | ->]; constructor|destruct Hp as [-> | (n & -> & R)]; now constructor|].
    destruct Ht as [-> | (x & I & ->)]; [constructor|]. cbn in I. repeat destruct I as [<-|I]; [constructor..|easy].
Qed.
Lemma words_unique s ts us : spelled s ts -> spelled s us -> ts = us.
Proof. intros A B. pose proof (spelled_lex _ _ A (S (length s)) (Nat.lt_succ_diag_r _)) as E. rewrite (spelled_lex _ _ B (S (length s)) (Nat.lt_succ_diag_r _)) in E. congruence. Qed.

(** ** Prefixes *)
Lemma split_app x : forall y, split_commas (x ++ 44%N :: y) = split_commas x ++ split_commas y.
Proof.
  induction x as [|c x IH]; intros y; [reflexivity|]. cbn [app split_commas]. destruct (N.eqb c 44); rewrite IH; [reflexivity|].
  destruct (split_commas x) eqn:E; [|reflexivity]. destruct x as [|d x]; [discriminate|]. cbn in E. destruct (N.eqb d 44); [discriminate|]. now destruct (split_commas x).
Qed.
Lemma split_none p : ~ In 44%N p -> split_commas p = [p].
Proof.
  induction p as [|c p IH]; intros N; [reflexivity|]. cbn. destruct (N.eqb_spec c 44) as [->|]; [exfalso; apply N; now left|]. rewrite IH; [reflexivity|]. intros I. apply N. now right.
Qed.
Lemma split_once_none c s : split_once c s = None -> ~ In c s.
Proof.
  induction s as [|d s IH]; cbn; [easy|]. destruct (N.eqb_spec d c); [discriminate|]. destruct (split_once c s) as [[]|]; [discriminate|]. intros _ [E|I]; [easy|]. now apply IH.
Qed.
Lemma split_commas_spec v p : In p (split_commas v) <-> comma_part p v.
Proof.
  split.
  - remember (length v) as n eqn:L. revert v L. induction n as [n IH] using lt_wf_ind. intros v -> I. destruct (split_once 44 v) as [[x y]|] eqn:E.
    + apply split_once_spec in E as [-> F]. rewrite split_app, (split_none x F) in I. destruct I as [<-|I].
      * exists [], (of_string "," ++ y). splits; [reflexivity|exact F|now left|right; eauto].
      * destruct (IH (length y) ltac:(rewrite app_length; cbn; lia) y eq_refl I) as (a & b & -> & N & A & B). exists (x ++ of_string "," ++ a), b. splits; auto.
        -- cbn [app of_string]. rewrite <- !app_assoc. reflexivity.
        -- right. destruct A as [-> | (a' & ->)]; [exists x; now rewrite app_nil_r|]. exists (x ++ of_string "," ++ a'). now rewrite <- !app_assoc.
    + apply split_once_none in E. rewrite split_none in I by easy. destruct I as [<-|[]]. exists [], []. splits; [now rewrite app_nil_r|exact E|now left|now left].
  - intros (a & b & -> & N & A & B).
    assert (H : In p (split_commas (p ++ b))).
    { destruct B as [-> | (b' & ->)]; [rewrite app_nil_r, split_none by easy; now left|]. change (of_string "," ++ b') with (44%N :: b'). rewrite split_app, split_none by easy. now left. }
    destruct A as [-> | (a' & ->)]; [exact H|]. rewrite <- app_assoc. change (of_string "," ++ p ++ b) with (44%N :: p ++ b). rewrite split_app. apply in_or_app. now right.
Qed.
Lemma text_before_spec a : forall b, text_before a b <-> Map_Model.str_cmp a b = Lt.
Proof.
  induction a as [|x a IH]; intros [|y b]; cbn; split; try easy; try (intros H; inversion H; fail).
  - constructor.
  - intros H. inversion H as [|? ? ? ? L|? ? ? T]; subst; [now rewrite (proj2 (N.compare_lt_iff x y))|]. rewrite N.compare_refl. now apply IH.
  - destruct (N.compare_spec x y) as [->|L|L]; intros H; [|now apply tb_char|discriminate]. apply tb_same. now apply IH.
Qed.
Definition leq (a b : str) : Prop := a = b \/ text_before a b.
Lemma before_trans a b c : text_before a b -> text_before b c -> text_before a c.
Proof. rewrite !text_before_spec. apply Map_Model.str_cmp_trans. Qed.
Lemma before_irrefl a : ~ text_before a a.
Proof. rewrite text_before_spec. rewrite Map_Model.str_cmp_refl. discriminate. Qed.
Lemma leq_trans a b c : leq a b -> leq b c -> leq a c.
Proof. unfold leq. intros [->|A] [->|B]; auto. right. eapply before_trans; eauto. Qed.
Lemma insert_in s l x : In x (insert_str s l) <-> x = s \/ In x l.
Proof. induction l as [|t l IH]; cbn; [intuition auto|]. destruct (Map_Model.str_cmp s t); cbn; rewrite ?IH; intuition auto. Qed.
Lemma insert_sorted s l : StronglySorted leq l -> StronglySorted leq (insert_str s l).
Proof.
  induction 1 as [|t l H IH F]; [repeat constructor|]. cbn. destruct (Map_Model.str_cmp s t) eqn:E.
  - constructor; [now constructor|]. constructor; [left; now apply Map_Model.str_cmp_eq|]. apply Map_Model.str_cmp_eq in E as ->. exact F.
  - constructor; [now constructor|]. assert (L : leq s t) by (right; now apply text_before_spec). constructor; [easy|]. apply (Forall_impl _) with (2 := F). intros x. now apply leq_trans.
  - constructor; [easy|]. apply Forall_forall. intros x I. apply insert_in in I as [->|I].
    + right. apply text_before_spec. rewrite Map_Model.str_cmp_anti, E. reflexivity.
    + now rewrite Forall_forall in F; apply F.
Qed.
Lemma sort_sorted l : StronglySorted leq (sort_strs l) /\ forall x, In x (sort_strs l) <-> In x l.
Proof.
  induction l as [|s l [H I]]; cbn; [split; [constructor|easy]|]. split; [now apply insert_sorted|]. intros x. rewrite insert_in, I. intuition auto.
Qed.
Lemma dedup_in l x : In x (dedup_strs l) <-> In x l.
Proof.
  induction l as [|s [|t r] IH]; [reflexivity|reflexivity|]. cbn [dedup_strs]. destruct (str_eqb s t) eqn:E.
  - apply str_eqb_eq in E as <-. rewrite IH. cbn. tauto.
  - cbn [In] in *. rewrite IH. reflexivity.
Qed.
Lemma dedup_sorted l : StronglySorted leq l -> StronglySorted text_before (dedup_strs l).
Proof.
  induction 1 as [|s r H IH F]; [constructor|]. destruct r as [|t r]; [repeat constructor|]. cbn [dedup_strs]. destruct (str_eqb s t) eqn:E; [exact IH|].
  constructor; [exact IH|]. apply Forall_forall. intros x I. apply (proj1 (dedup_in (t :: r) x)) in I. pose proof (proj1 (Forall_forall _ _) F x I) as [->|L]; [|exact L]. exfalso.
  inversion F as [|? ? L0 _]; subst. inversion H as [|? ? _ F']; subst. assert (L1 : leq t x).
  { destruct I as [->|I]; [now left|]. now apply (proj1 (Forall_forall _ _) F'). }
  destruct L0 as [->|L0]; [|destruct L1 as [->|L1]]; try (rewrite (proj2 (str_eqb_eq _ _) eq_refl) in E; discriminate).
  exact (before_irrefl _ (before_trans _ _ _ L0 L1)).
Qed.
Lemma enumerated l : enumerates (fun p => In p l) (dedup_strs (sort_strs l)).
Proof. destruct (sort_sorted l) as [H I]. split; [intros p; now rewrite dedup_in|now apply dedup_sorted]. Qed.
Lemma has_in l s : existsb (str_eqb s) l = true <-> In s l.
Proof. rewrite existsb_exists. split; [intros (x & I & E); apply str_eqb_eq in E as ->; easy|intros I; exists s; split; [easy|now apply str_eqb_eq]]. Qed.
Lemma no_exists {A} (f : A -> bool) l : existsb f l = false <-> forall x, In x l -> f x = false.
Proof.
  split.
  - intros E x I. destruct (f x) eqn:F; [|easy]. assert (X : existsb f l = true) by (apply existsb_exists; eauto). congruence.
  - intros H. destruct (existsb f l) eqn:E; [|easy]. apply existsb_exists in E as (x & I & F). rewrite H in F; easy.
Qed.
Lemma validate_spec check comment : validate check comment = true <-> forall p, In p check -> ~ In p comment.
Proof.
  assert (B : forall l l', negb (existsb (fun s => existsb (str_eqb s) l) l') = true <-> forall p, In p l' -> ~ In p l).
  { intros l l'. rewrite negb_true_iff, no_exists. split; intros H p I; [|destruct (existsb (str_eqb p) l) eqn:E; [|easy]; apply has_in in E; now destruct (H p I)].
    intros J. apply has_in in J. rewrite H in J; easy. }
  unfold validate. destruct (existsb _ check) eqn:E1; [apply B|]. destruct (existsb _ comment) eqn:E2.
  - rewrite B. split; intros H p I J; now apply (H p).
  - split; [|easy]. intros _ p I J. rewrite no_exists in E1, E2. specialize (E1 p I). specialize (E2 p J). apply negb_false_iff in E1, E2. apply str_eqb_eq in E1 as ->. discriminate.
Qed.
Lemma prefix_ok_spec alnum s : (forall c, ascii_letter c -> alnum c = true) -> prefix_ok alnum s = true <-> prefix_form alnum s.
Proof.
  intros A. unfold prefix_ok. destruct s as [|c r]; [split; [discriminate|intros (c & r & E & _); discriminate]|].
  assert (La : is_alpha c = true <-> ascii_letter c) by (unfold is_alpha, ascii_letter; lia).
  rewrite andb_true_iff, negb_true_iff, no_exists, La.
  assert (D : forall x, (negb (alnum x) && negb (N.eqb x 95) && negb (N.eqb x 45))%bool = false <-> alnum x = true \/ x = 95%N \/ x = 45%N).
  { intros x. destruct (alnum x), (N.eqb_spec x 95), (N.eqb_spec x 45); cbn; intuition congruence. }
  split.
  - intros [L F]. exists c, r. splits; auto. apply Forall_forall. intros x I. apply D. apply F. now right.
  - intros (c' & r' & [= <- <-] & L & F). split; [easy|]. intros x I. apply D. destruct I as [<-|I]; [left; auto|]. now rewrite Forall_forall in F; apply F.
Qed.
