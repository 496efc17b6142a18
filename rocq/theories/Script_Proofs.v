(** Proofs about the script parser. *)
From Coq Require Import String.
From Verif Require Import Base Cursor_Model Num_Spec Num_Proofs Script_Model Script_Spec.
From Verif Require BoolExpr_Model BoolExpr_Spec BoolExpr_Proofs Num_Model.
Notation length := List.length.
Open Scope string_scope. Open Scope list_scope.
Ltac splits := repeat match goal with |- _ /\ _ => split end.

(** ** Numerals *)
Lemma dec_digit_char c c' d : digit_is c d -> digit_is c' d -> (d < 10)%Z -> c = c'.
Proof. intros H K L. inversion H; inversion K; subst; lia. Qed.
Lemma value_pos s v : value_is 10 s v -> s <> [] -> hd 48%N s <> 48%N -> (0 < v)%Z.
Proof.
  intros H. induction H as [|s v c d H IH D L]; intros NE HD; [easy|]. pose proof (digit_is_nonneg c d D). destruct s as [|x s].
  - inversion H; subst; [|now destruct s]. cbn in HD. destruct D; [destruct (N.eq_dec c 48); [congruence|lia]|lia|lia].
  - cbn in IH, HD. specialize (IH ltac:(easy) HD). lia.
Qed.
Lemma value_snoc_inv s c v : value_is 10 (s ++ [c]) v -> exists w d, value_is 10 s w /\ digit_is c d /\ (d < 10)%Z /\ v = (w * 10 + d)%Z.
Proof. intros H. inversion H as [E|s' w c' d H1 D L E]; [now destruct s|]. apply app_inj_tail in E as [-> ->]. eauto 6. Qed.
Lemma value_unique s : forall t v, value_is 10 s v -> value_is 10 t v -> (s = [] \/ hd 48%N s <> 48%N) -> (t = [] \/ hd 48%N t <> 48%N) -> s = t.
Proof.
  induction s as [|c s IH] using rev_ind; intros t v H K HS HT.
  - destruct t as [|y t]; auto. exfalso. inversion H; [|now destruct s]. subst. assert (0 < 0)%Z; [|lia]. apply (value_pos (y :: t)); auto; [easy|]. now destruct HT.
  - destruct t as [|y t] using rev_ind.
    + exfalso. inversion K; [|now destruct s0]. subst. assert (0 < 0)%Z; [|lia]. apply (value_pos (s ++ [c])); auto; [now destruct s|]. destruct HS; auto. now destruct s.
    + clear IHt. apply value_snoc_inv in H as (w & d & H & D & L & E). apply value_snoc_inv in K as (w' & d' & K & D' & L' & E').
      pose proof (digit_is_nonneg c d D). pose proof (digit_is_nonneg y d' D'). assert (d = d' /\ w = w') as [<- <-] by lia. rewrite (dec_digit_char c y d); auto. f_equal.
      apply (IH t w); auto.
      * destruct s; auto. right. now destruct HS.
      * destruct t; auto. right. now destruct HT.
Qed.
Lemma numeral_unique v s t : numeral v s -> numeral v t -> s = t.
Proof.
  intros [C V] [C' V']. 
  assert (Z0 : value_is 10 [48%N] 0). { change [48%N] with ([] ++ [48%N]). replace 0%Z with (0 * 10 + 0)%Z by lia. constructor; [constructor| |lia]. apply (di_dec 48). lia. }
  assert (OK : forall x, canonical x -> value_is 10 x v -> x = [48%N] /\ v = 0%Z \/ x <> [] /\ hd 48%N x <> 48%N /\ (0 < v)%Z).
  { intros x [->|[N H]] X; [left; split; auto; apply (value_is_fun 10 [48%N]); auto|right; splits; auto; now apply (value_pos x)]. }
  destruct (OK s C V) as [[-> E]|(A & B & E)], (OK t C' V') as [[-> E']|(A' & B' & E')]; auto; try lia.
  apply (value_unique s t v); auto.
Qed.
Lemma show_numeral n : numeral (Z.of_N n) (show n).
Proof. destruct (show_digits_spec 10 false (Z.of_N n)) as (V & C & _); auto; [lia|]. split; auto. Qed.
Lemma numeral_show n s : numeral (Z.of_N n) s <-> s = show n.
Proof. split; [intros H; apply (numeral_unique _ s _ H), show_numeral|intros ->; apply show_numeral]. Qed.

(** ** Strings *)
Lemma strip_prefix_spec p : forall s r, strip_prefix p s = Some r <-> s = p ++ r.
Proof.
  induction p as [|x p IH]; intros s r; cbn.
  - split; [now intros [= ->]|now intros ->].
  - destruct s as [|y s]; [split; discriminate|]. destruct (N.eqb_spec x y) as [->|N].
    + rewrite IH. split; [now intros ->|now intros [= ->]].
    + split; [discriminate|]. intros [= E _]. congruence.
Qed.
Lemma strip_last_spec c s t : strip_last c s = Some t <-> s = t ++ [c].
Proof.
  unfold strip_last. rewrite <- (rev_involutive s) at 2. destruct (rev s) as [|x r].
  - split; [discriminate|]. intros E. now destruct t.
  - cbn [rev]. destruct (N.eqb_spec x c) as [->|N].
    + split; [now intros [= <-]|]. intros E. apply app_inj_tail in E as [-> _]. reflexivity.
    + split; [discriminate|]. intros E. apply app_inj_tail in E as [_ E]. congruence.
Qed.
Lemma strip_last_none c s : strip_last c s = None <-> forall t, s <> t ++ [c].
Proof.
  split.
  - intros H t E. apply strip_last_spec in E. congruence.
  - intros H. destruct (strip_last c s) as [t|] eqn:E; auto. apply strip_last_spec in E. now apply H in E.
Qed.
Lemma white_spec c : BoolExpr_Model.is_whitespace c = true <-> BoolExpr_Spec.white c.
Proof. apply BoolExpr_Proofs.is_white_spec. Qed.
Lemma white_false c : BoolExpr_Model.is_whitespace c = false <-> ~ BoolExpr_Spec.white c.
Proof. rewrite <- white_spec. now destruct (BoolExpr_Model.is_whitespace c). Qed.
Lemma trim_start_ok s : ltrimmed s (trim_start s).
Proof.
  induction s as [|c s (a & E & B & O)]; cbn [trim_start].
  - exists []. splits; auto; [constructor|easy].
  - destruct (BoolExpr_Model.is_whitespace c) eqn:W.
    + exists (c :: a). splits; auto; [cbn; congruence|]. constructor; auto. now apply white_spec.
    + exists []. splits; auto; [constructor|]. intros x r [= <- _]. now apply white_false.
Qed.
Lemma ltrimmed_unique s t : ltrimmed s t -> t = trim_start s.
Proof.
  intros (a & -> & B & O). induction B as [|c a W B IH]; cbn [app trim_start].
  - destruct t as [|c t]; auto. cbn. assert (X : BoolExpr_Model.is_whitespace c = false) by (apply white_false; eapply O; reflexivity). now rewrite X.
  - assert (X : BoolExpr_Model.is_whitespace c = true) by now apply white_spec. now rewrite X.
Qed.
Lemma ltrimmed_spec s t : ltrimmed s t <-> t = trim_start s.
Proof. split; [apply ltrimmed_unique|intros ->; apply trim_start_ok]. Qed.
Lemma blank_rev s : blank s -> blank (rev s). Proof. apply Forall_rev. Qed.
Lemma rtrimmed_rev s t : rtrimmed s t <-> ltrimmed (rev s) (rev t).
Proof.
  split.
  - intros (b & -> & B & O). exists (rev b). splits; [apply rev_app_distr|now apply blank_rev|]. intros c r E. apply (O c (rev r)). rewrite <- (rev_involutive t), E. reflexivity.
  - intros (a & E & B & O). exists (rev a). splits; [|now apply blank_rev|].
    + rewrite <- (rev_involutive s), E, rev_app_distr, rev_involutive. reflexivity.
    + intros c r ->. apply (O c (rev r)). now rewrite rev_app_distr.
Qed.
Lemma rtrimmed_spec s t : rtrimmed s t <-> t = trim_end s.
Proof.
  rewrite rtrimmed_rev, ltrimmed_spec. unfold trim_end. split; intros H; [now rewrite <- H, rev_involutive|now rewrite H, rev_involutive].
Qed.
Lemma blank_trim_start s : blank s -> trim_start s = [].
Proof. intros B. symmetry. apply ltrimmed_unique. exists s. splits; auto; [now rewrite app_nil_r|easy]. Qed.
Lemma trimmed_spec s t : trimmed s t <-> t = trim s.
Proof.
  unfold trim. split.
  - intros (a & b & -> & A & B & OL & OR). assert (TS : trim_start (a ++ t ++ b) = match t with [] => [] | _ => t ++ b end).
    { symmetry. destruct t as [|c t]; [cbn [app]; symmetry; apply blank_trim_start; apply Forall_app; auto|]. apply ltrimmed_unique. exists a. splits; auto. intros x r [= <- _]. eapply OL. reflexivity. }
    rewrite TS. destruct t as [|c t]; [reflexivity|]. apply rtrimmed_spec. exists b. auto.
  - intros ->. destruct (trim_start_ok s) as (a & E & A & OL). destruct (proj2 (rtrimmed_spec (trim_start s) _) eq_refl) as (b & E' & B & OR).
    exists a, b. splits; auto; [congruence|]. intros c r X. apply (OL c (r ++ b)). rewrite E' at 1. now rewrite X.
Qed.
Lemma trim_comm s : trim_start (trim_end s) = trim s.
Proof.
  apply trimmed_spec. destruct (trim_start_ok (trim_end s)) as (a & E & A & OL). destruct (proj2 (rtrimmed_spec s _) eq_refl) as (b & E' & B & OR).
  exists a, b. splits; auto; [rewrite E' at 1; rewrite E at 1; now rewrite <- app_assoc|]. intros c r X. apply (OR c (a ++ r)). rewrite E at 1. rewrite X. now rewrite app_assoc.
Qed.
Lemma trim_nil s : trim s = [] <-> blank s.
Proof.
  split.
  - intros E. destruct (proj2 (trimmed_spec s _) eq_refl) as (a & b & H & A & B & _). rewrite H, E. apply Forall_app. auto.
  - intros B. unfold trim. rewrite blank_trim_start; auto.
Qed.

(** ** Keywords *)
Lemma keyword_at_spec s k c : keyword_at keywords s = Some (k, c) <-> s = spelling k ++ c.
Proof.
  split.
  - intros H. unfold keywords in H. cbn [keyword_at] in H.
    repeat match goal with H : (match strip_prefix ?p s with _ => _ end) = _ |- _ => destruct (strip_prefix p s) eqn:?; [injection H as <- <-; match goal with E : _ = Some _ |- _ => apply strip_prefix_spec in E; exact E end|] end. discriminate.
  - intros ->. destruct k; reflexivity.
Qed.
Lemma keyword_at_none s : keyword_at keywords s = None <-> forall k c, s <> spelling k ++ c.
Proof.
  split.
  - intros H k c E. apply keyword_at_spec in E. congruence.
  - intros H. destruct (keyword_at keywords s) as [[k c]|] eqn:E; auto. apply keyword_at_spec in E. now apply H in E.
Qed.
Lemma raw_directive_spec l : match raw_directive l with Some (k, c) => says l k c | None => silent l end.
Proof.
  induction l as [|x l IH].
  - cbn. intros k [|] c; [|discriminate]. destruct k; discriminate.
  - cbn [raw_directive]. destruct (keyword_at keywords (x :: l)) as [[k c]|] eqn:E.
    + apply keyword_at_spec in E. exists []. split; [exact E|]. cbn. lia.
    + rewrite keyword_at_none in E. destruct (raw_directive l) as [[k c]|].
      * destruct IH as (pre & -> & M). exists (x :: pre). split; auto. intros k' [|y pre'] c' E'; [now apply E in E'|]. injection E' as <- E'. apply M in E'. cbn. lia.
      * intros k [|y pre] c E'; [now apply E in E'|]. injection E' as <- E'. now apply IH in E'.
Qed.
Lemma spelling_inj k k' c c' : spelling k ++ c = spelling k' ++ c' -> k = k' /\ c = c'.
Proof. intros H. assert (X : keyword_at keywords (spelling k ++ c) = Some (k, c)) by now apply keyword_at_spec. rewrite H in X. apply keyword_at_spec in X. assert (Y : keyword_at keywords (spelling k' ++ c') = Some (k', c')) by now apply keyword_at_spec. rewrite X in Y. assert (Z : keyword_at keywords (spelling k ++ c) = Some (k, c)) by now apply keyword_at_spec. rewrite Z in Y. now injection Y. Qed.
Lemma says_fun l k c k' c' : says l k c -> says l k' c' -> k = k' /\ c = c'.
Proof.
  intros (p & -> & M) (p' & E & M'). assert (L : length p = length p').
  { pose proof (M k' p' c' E). pose proof (M' k p c eq_refl). lia. }
  clear M M'. revert p' E L. induction p as [|x p IH]; intros [|y p'] E L; try discriminate.
  - cbn [app] in E. now apply spelling_inj in E.
  - cbn [app] in E. injection E as _ E. apply (IH p'); auto.
Qed.
Lemma says_raw l k c : says l k c <-> raw_directive l = Some (k, c).
Proof.
  pose proof (raw_directive_spec l) as H. destruct (raw_directive l) as [[k' c']|].
  - split; [intros S; destruct (says_fun _ _ _ _ _ H S) as [-> ->]; auto|intros [= -> ->]; auto].
  - split; [|discriminate]. intros (p & E & _). now apply H in E.
Qed.
Lemma silent_raw l : silent l <-> raw_directive l = None.
Proof.
  pose proof (raw_directive_spec l) as H. destruct (raw_directive l) as [[k' c']|]; [|tauto].
  split; [|discriminate]. intros S. destruct H as (p & E & _). now apply S in E.
Qed.

(** ** Lines *)
Lemma cut_split text : cut text (map fst (split_inclusive text)).
Proof.
  induction text as [|c text IH]; cbn [split_inclusive]; [constructor|]. destruct (N.eqb_spec c 10) as [->|N].
  - cbn [map fst]. apply (cut_line [] text); auto.
  - destruct (split_inclusive text) as [|[l b] t] eqn:E; cbn [map fst] in *.
    + inversion IH; subst. apply (cut_last [c]); [easy|]. intros [H|[]]. congruence.
    + inversion IH as [|l0 r ls NI H|l0 NE NI]; subst.
      * apply (cut_line (c :: l) r); auto. intros [H'|H']; [congruence|]. auto.
      * apply (cut_last (c :: l)); [easy|]. intros [H'|H']; [congruence|]. auto.
Qed.
Lemma app_sep_unique (c : N) a b x y : ~ In c a -> ~ In c x -> a ++ c :: b = x ++ c :: y -> a = x /\ b = y.
Proof.
  revert x. induction a as [|h a IH]; intros [|k x] A X E; cbn in E.
  - now injection E.
  - injection E as E _. exfalso. apply X. left. auto.
  - injection E as E _. exfalso. apply A. left. auto.
  - injection E as -> E. apply IH in E as [-> ->]; auto; intros I; [apply A|apply X]; right; auto.
Qed.
Lemma cut_unique text ls : cut text ls -> forall ls', cut text ls' -> ls = ls'.
Proof.
  induction 1 as [|l r ls NI H IH|l NE NI]; intros ls' K.
  - inversion K as [|l r ? ? ? E|]; auto; [now destruct l|congruence].
  - inversion K as [E|l' r' ls'' NI' H' E|l' NE' NI' E]; subst.
    + now destruct l.
    + apply app_sep_unique in E as [-> ->]; auto. f_equal. auto.
    + exfalso. apply NI'. apply in_elt.
  - inversion K as [E|l' r' ls'' NI' H' E|l' NE' NI' E]; subst; auto; [congruence|]. exfalso. apply NI. apply in_elt.
Qed.
Lemma bare_spec l b : bare l b <-> b = strip_cr l.
Proof.
  unfold strip_cr. split.
  - intros [l0|l0 H].
    + now rewrite (proj2 (strip_last_spec 13 (l0 ++ [13%N]) l0) eq_refl).
    + apply strip_last_none in H. now rewrite H.
  - intros ->. destruct (strip_last 13 l) as [t|] eqn:E.
    + apply strip_last_spec in E as ->. constructor.
    + constructor. now apply (proj1 (strip_last_none 13 l)).
Qed.
Lemma terminated_split text : terminated text -> Forall (fun x => snd x = true) (split_inclusive text).
Proof.
  intros [->|[t ->]]; [constructor|]. induction t as [|c t IH]; cbn; [repeat constructor|].
  destruct (N.eqb c 10); [constructor; auto|]. destruct (split_inclusive (t ++ [10%N])) as [|[l b] r] eqn:E.
  - exfalso. destruct t as [|d t]; cbn in E; [discriminate|]. destruct (N.eqb d 10); [discriminate|]. destruct (split_inclusive (t ++ [10%N])) as [|[]]; discriminate.
  - inversion IH; subst. constructor; auto.
Qed.
Lemma number_lines_true l : Forall (fun x => snd x = true) l -> forall n, number_lines n l = combine (seq (S n) (length l)) (map (fun x => strip_cr (fst x)) l).
Proof.
  induction 1 as [|[s b] l H F IH]; intros n; auto. cbn in H. subst b. cbn [number_lines length seq combine map fst]. f_equal. apply IH.
Qed.
Lemma Forall2_bare ls : forall bs, Forall2 bare ls bs <-> bs = map strip_cr ls.
Proof.
  induction ls as [|l ls IH]; intros bs; split; intros H.
  - now inversion H.
  - subst. constructor.
  - inversion H; subst. apply IH in H4 as ->. apply bare_spec in H2 as ->. reflexivity.
  - subst. cbn. constructor; [now apply bare_spec|]. now apply IH.
Qed.
Lemma numbered_lines text nls : terminated text -> (numbered text nls <-> nls = lines_of text).
Proof.
  intros T. unfold numbered, lines_of. rewrite (number_lines_true _ (terminated_split _ T)). split.
  - intros (ls & bs & C & F & ->). apply Forall2_bare in F as ->. rewrite (cut_unique _ _ C _ (cut_split text)). rewrite !map_map, !map_length. reflexivity.
  - intros ->. exists (map fst (split_inclusive text)), (map strip_cr (map fst (split_inclusive text))). splits; [apply cut_split|now apply Forall2_bare|]. now rewrite !map_map, !map_length.
Qed.

(** ** Integers *)
Lemma ascii_digit_spec c : ascii_digit c = true <-> (48 <= c <= 57)%N.
Proof. unfold ascii_digit. rewrite andb_true_iff, !N.leb_le. tauto. Qed.
Lemma to_digit_10 c : Num_Model.to_digit 10 c = if ascii_digit c then Some (Z.of_N (c - 48)) else None.
Proof.
  destruct (ascii_digit c) eqn:E.
  - apply ascii_digit_spec in E. apply to_digit_spec; auto. split; [|lia]. replace (Z.of_N (c - 48)) with (Z.of_N c - 48)%Z by lia. now constructor.
  - destruct (Num_Model.to_digit 10 c) as [d|] eqn:D; auto. apply to_digit_spec in D as [D L]; auto. destruct D; try lia. exfalso. assert (ascii_digit c = true) by now apply ascii_digit_spec. congruence.
Qed.
Lemma accumulate_spec s : forall acc v, (acc <= usize_max)%N -> (accumulate acc s = Some v <-> valacc 10 (Z.of_N acc) s = Some (Z.of_N v) /\ (v <= usize_max)%N).
Proof.
  induction s as [|c s IH]; intros acc v L; cbn [accumulate valacc].
  - split; [intros [= ->]; auto|]. intros [[= E] _]. f_equal. lia.
  - rewrite to_digit_10. destruct (ascii_digit c) eqn:D; [|split; [discriminate|now intros []]].
    apply ascii_digit_spec in D. replace (Z.of_N acc * 10 + Z.of_N (c - 48))%Z with (Z.of_N (acc * 10 + (c - 48))) by lia.
    destruct (N.leb_spec (acc * 10 + (c - 48)) usize_max) as [B|B]; [now apply IH|]. split; [discriminate|]. intros [H V]. exfalso. apply valacc_ge in H; auto; lia.
Qed.
Lemma accumulate0 s v : accumulate 0 s = Some v <-> value_is 10 s (Z.of_N v) /\ (v < 2 ^ 64)%N.
Proof.
  assert (U : (usize_max = 2 ^ 64 - 1)%N) by reflexivity.
  rewrite accumulate_spec by (rewrite U; lia). cbn [Z.of_N]. rewrite valacc_value by auto. rewrite U. split; intros [A B]; split; auto; lia.
Qed.
Lemma digits_first ds v : value_is 10 ds v -> ~ In 43%N ds.
Proof.
  intros H I. apply value_dec_chars in H. rewrite Forall_forall in H. apply H in I. unfold decimal_char in I. lia.
Qed.
Lemma parse_usize_spec s v : parse_usize s = Some v <-> exists ds, (s = ds \/ s = of_string "+" ++ ds) /\ digits_are ds (Z.of_N v) /\ (v < 2 ^ 64)%N.
Proof.
  change (of_string "+") with [43%N]. unfold digits_are. split.
  - destruct s as [|c [|c' s]]; cbn [parse_usize]; [discriminate| |].
    + intros H. apply accumulate0 in H as [A B]. exists [c]. splits; auto. easy.
    + destruct (N.eqb_spec c 43) as [->|N]; intros H; apply accumulate0 in H as [A B].
      * exists (c' :: s). splits; auto. easy.
      * exists (c :: c' :: s). splits; auto. easy.
  - intros (ds & [->| ->] & (NE & V) & B).
    + destruct ds as [|c [|c' s]]; [easy|now apply accumulate0|]. cbn [parse_usize]. destruct (N.eqb_spec c 43) as [->|N]; [|now apply accumulate0].
      exfalso. apply (digits_first _ _ V). now left.
    + destruct ds as [|c ds]; [easy|]. cbn [app parse_usize]. rewrite N.eqb_refl. now apply accumulate0.
Qed.
Lemma parse_usize_digits ds v : ds <> [] -> ~ In 43%N ds -> (parse_usize ds = Some v <-> digits_are ds (Z.of_N v) /\ (v < 2 ^ 64)%N).
Proof.
  intros NE NP. rewrite parse_usize_spec. split; [|intros [A B]; exists ds; auto]. intros (d & [->| ->] & A & B); auto. exfalso. apply NP. now left.
Qed.
(** ** References to lines *)
Lemma span_spec f s a b : span f s = (a, b) <-> s = a ++ b /\ Forall (fun c => f c = true) a /\ (forall c r, b = c :: r -> f c = false).
Proof.
  revert a b. induction s as [|c s IH]; intros a b; cbn [span].
  - split; [intros [= <- <-]; splits; auto; discriminate|]. intros (E & _). destruct a, b; try discriminate. reflexivity.
  - destruct (f c) eqn:F.
    + destruct (span f s) as [x y] eqn:E. destruct (proj1 (IH x y) eq_refl) as (E1 & E2 & E3). split.
      * intros [= <- <-]. splits; auto. cbn. congruence.
      * intros (H & FA & N). destruct a as [|h a]; cbn in H.
        -- subst b. rewrite (N c s eq_refl) in F. discriminate.
        -- injection H as <- H. inversion FA; subst. assert (X : (x, y) = (a, b)) by (apply IH; splits; auto). injection X as -> ->. reflexivity.
    + split.
      * intros [= <- <-]. splits; auto. now intros d r [= <- _].
      * intros (H & FA & N). destruct a as [|h a]; cbn in H; [now subst|]. injection H as <- H. inversion FA; congruence.
Qed.
Section Wide.
Context (wide : N -> bool).
Hypothesis wide_ok : forall c, wide c = true -> (128 <= c)%N.
Definition offset_ref (neg : bool) (a b ds : str) : str := of_string "%(line" ++ a ++ [if neg then 45%N else 43%N] ++ b ++ ds ++ of_string ")".
Lemma digit_spec c : digit wide c = true <-> digit_char wide c.
Proof. unfold digit, digit_char. rewrite orb_true_iff, ascii_digit_spec. tauto. Qed.
Lemma spaces_spec a : Forall (fun c => (32 =? c)%N = true) a <-> spaces a.
Proof. unfold spaces. rewrite !Forall_forall. split; intros H c I; specialize (H c I); [now apply N.eqb_eq|now apply N.eqb_eq]. Qed.
Definition sign (neg : bool) : N := if neg then 45%N else 43%N.
Lemma line_ref_spec s : match line_ref wide s with
  | Some (None, rest) => s = of_string "%(line)" ++ rest
  | Some (Some (neg, ds), rest) => exists a b, s = of_string "%(line" ++ a ++ [sign neg] ++ b ++ ds ++ of_string ")" ++ rest /\
      spaces a /\ spaces b /\ ds <> [] /\ Forall (digit_char wide) ds
  | None => forall r s', s = r ++ s' -> ~ refers wide r
  end.
Proof.
  unfold line_ref. destruct (strip_prefix (of_string "%(line)") s) as [r|] eqn:E0; [now apply strip_prefix_spec in E0|].
  assert (N0 : forall r, s <> of_string "%(line)" ++ r) by (intros r E; apply strip_prefix_spec in E; congruence). clear E0.
  assert (NR : forall r s' (P : Prop), (forall a sg b ds, s = of_string "%(line" ++ a ++ [sg] ++ b ++ ds ++ of_string ")" ++ s' -> spaces a -> spaces b -> (sg = 43%N \/ sg = 45%N) -> ds <> [] -> Forall (digit_char wide) ds -> P) -> s = r ++ s' -> refers wide r -> P).
  { intros r s' P H -> [->|(a & sg & b & ds & -> & A & B & SG & NE & F)]; [now destruct (N0 s')|]. apply (H a sg b ds); auto. now rewrite <- !app_assoc. }
  assert (DS : forall ds, Forall (fun c => digit wide c = true) ds <-> Forall (digit_char wide) ds).
  { intros ds. rewrite !Forall_forall. split; intros H c I; apply digit_spec; auto. }
  destruct (strip_prefix (of_string "%(line") s) as [r|] eqn:E1.
  2: { intros r s'. refine (NR r s' False _). intros a sg b ds ES _ _ _ _ _. apply strip_prefix_spec in ES. congruence. }
  apply strip_prefix_spec in E1 as ->. destruct (span (N.eqb 32) r) as [a r1] eqn:E2.
  assert (SP : forall a sg t, spaces a -> sg = 43%N \/ sg = 45%N -> span (N.eqb 32) (a ++ sg :: t) = (a, sg :: t)).
  { intros x sg t X S. apply span_spec. splits; auto; [now apply spaces_spec|]. intros c r' [= <- _]. destruct S as [->| ->]; reflexivity. }
  destruct (proj1 (span_spec _ _ _ _) E2) as (-> & FA & HA). apply spaces_spec in FA. destruct r1 as [|c r2].
  { intros r s'. refine (NR r s' False _). intros a' sg b ds ES A _ S _ _. apply app_inv_head in ES. rewrite ES in E2. cbn [app] in E2. rewrite SP in E2; auto. discriminate. }
  destruct ((c =? 43)%N || (c =? 45)%N) eqn:S.
  2: { intros r s'. refine (NR r s' False _). intros a' sg b ds ES A _ S' _ _. apply app_inv_head in ES. rewrite ES in E2. cbn [app] in E2. rewrite SP in E2; auto. injection E2 as <- <- <-. destruct S' as [->| ->]; discriminate. }
  assert (SC : c = sign (N.eqb c 45)). { apply orb_true_iff in S as [S|S]; apply N.eqb_eq in S as ->; reflexivity. }
  destruct (span (N.eqb 32) r2) as [b r3] eqn:E3. destruct (proj1 (span_spec _ _ _ _) E3) as (-> & FB & HB). apply spaces_spec in FB.
  destruct (span (digit wide) r3) as [ds r4] eqn:E4. destruct (proj1 (span_spec _ _ _ _) E4) as (-> & FD & HD). apply DS in FD.
  assert (NEG : (ds = [] \/ strip_prefix (of_string ")") r4 = None) -> forall r s', of_string "%(line" ++ a ++ c :: b ++ ds ++ r4 = r ++ s' -> ~ refers wide r).
  { intros BAD r s'. refine (NR r s' False _). intros a' sg b' ds' ES A B S' NE F. apply app_inv_head in ES. rewrite ES in E2. cbn [app] in E2. rewrite SP in E2; auto. injection E2 as <- <- E2.
    assert (X : span (N.eqb 32) (b' ++ ds' ++ of_string ")" ++ s') = (b', ds' ++ of_string ")" ++ s')).
    { apply span_spec. splits; auto; [now apply spaces_spec|]. intros d r' Y. destruct ds' as [|d' ds']; [easy|]. injection Y as -> _. inversion F as [|? ? F' _]; subst. apply N.eqb_neq. intros <-. destruct F' as [F'|F']; [lia|]. apply wide_ok in F'. lia. }
    rewrite <- E2 in E3. change (41%N :: s') with (of_string ")" ++ s') in E3. rewrite X in E3. injection E3 as <- E3.
    assert (Y : span (digit wide) (ds' ++ of_string ")" ++ s') = (ds', of_string ")" ++ s')).
    { apply span_spec. splits; auto; [now apply DS|]. intros d r' Z. injection Z as <- _. apply not_true_iff_false. rewrite digit_spec. intros [K|K]; [lia|]. apply wide_ok in K. lia. }
    rewrite <- E3 in E4. change (41%N :: s') with (of_string ")" ++ s') in E4. rewrite Y in E4. injection E4 as <- <-. destruct BAD as [BAD|BAD]; [congruence|]. discriminate. }
  destruct ds as [|d ds]; [apply NEG; auto|]. destruct (strip_prefix (of_string ")") r4) as [rest|] eqn:E5; [|apply NEG; auto].
  apply strip_prefix_spec in E5 as ->. exists a, b. rewrite <- SC. splits; auto. easy.
Qed.
Lemma ref_refers n r v : reference n r v -> refers wide r.
Proof.
  assert (D : forall ds d, digits_are ds d -> ds <> [] /\ Forall (digit_char wide) ds).
  { intros ds d [NE V]. split; auto. apply value_dec_chars in V. eapply Forall_impl; [|exact V]. intros c H. now left. }
  intros [|a b ds d A B H L|a b ds d A B H L]; [now left| |]; right; apply D in H as [NE F].
  - exists a, 43%N, b, ds. splits; auto.
  - exists a, 45%N, b, ds. splits; auto.
Qed.
Lemma refers_unique r r' s s' : refers wide r -> refers wide r' -> r ++ s = r' ++ s' -> r = r' /\ s = s'.
Proof.
  assert (P : forall r, refers wide r -> exists m, r = m ++ [41%N] /\ ~ In 41%N m).
  { intros x [->|(a & sg & b & ds & -> & A & B & S & NE & F)].
    - exists (of_string "%(line"). split; auto. cbn. intuition discriminate.
    - exists (of_string "%(line" ++ a ++ [sg] ++ b ++ ds). split; [now rewrite <- !app_assoc|].
      unfold spaces in *. rewrite Forall_forall in A, B, F. rewrite !in_app_iff. intros [H|[H|[H|[H|H]]]].
      + cbn in H. intuition discriminate.
      + apply A in H. discriminate.
      + destruct H as [H|[]]. destruct S; congruence.
      + apply B in H. discriminate.
      + destruct (F _ H) as [K|K]; [lia|]. apply wide_ok in K. lia. }
  intros R R' E. destruct (P _ R) as (m & -> & NM). destruct (P _ R') as (m' & -> & NM'). rewrite <- !app_assoc in E. cbn [app] in E. apply app_sep_unique in E as [-> ->]; auto.
Qed.
Lemma line_ref_offset neg a b ds rest : spaces a -> spaces b -> ds <> [] -> Forall (digit_char wide) ds ->
  line_ref wide (of_string "%(line" ++ a ++ [sign neg] ++ b ++ ds ++ of_string ")" ++ rest) = Some (Some (neg, ds), rest).
Proof.
  intros A B NE F. unfold line_ref.
  assert (S : sign neg = 43%N \/ sign neg = 45%N) by (destruct neg; auto).
  assert (E0 : forall x, strip_prefix (of_string "%(line)") (of_string "%(line" ++ x) = strip_prefix [41%N] x) by reflexivity.
  rewrite E0. assert (E1 : strip_prefix [41%N] (a ++ [sign neg] ++ b ++ ds ++ of_string ")" ++ rest) = None).
  { destruct A as [|c a <- A]; [destruct neg|]; reflexivity. }
  rewrite E1, (proj2 (strip_prefix_spec _ _ _) eq_refl).
  assert (E2 : span (N.eqb 32) (a ++ [sign neg] ++ b ++ ds ++ of_string ")" ++ rest) = (a, [sign neg] ++ b ++ ds ++ of_string ")" ++ rest)).
  { apply span_spec. splits; auto; [now apply spaces_spec|]. intros c r [= <- _]. destruct S as [->| ->]; reflexivity. }
  rewrite E2. change ([sign neg] ++ b ++ ds ++ of_string ")" ++ rest) with (sign neg :: b ++ ds ++ of_string ")" ++ rest). cbv iota.
  assert (E3 : ((sign neg =? 43) || (sign neg =? 45))%N = true) by (destruct S as [->| ->]; reflexivity). rewrite E3.
  assert (E4 : span (N.eqb 32) (b ++ ds ++ of_string ")" ++ rest) = (b, ds ++ of_string ")" ++ rest)).
  { apply span_spec. splits; auto; [now apply spaces_spec|]. intros d r' Y. destruct ds as [|d' ds]; [easy|]. injection Y as -> _. inversion F as [|? ? F' _]; subst. apply N.eqb_neq. intros <-. destruct F' as [F'|F']; [lia|]. apply wide_ok in F'. lia. }
  rewrite E4. assert (E5 : span (digit wide) (ds ++ of_string ")" ++ rest) = (ds, of_string ")" ++ rest)).
  { apply span_spec. splits; auto.
    - eapply Forall_impl; [|exact F]. intros c. apply digit_spec.
    - intros d r' Z. injection Z as <- _. apply not_true_iff_false. rewrite digit_spec. intros [K|K]; [lia|]. apply wide_ok in K. lia. }
  rewrite E5, (proj2 (strip_prefix_spec _ _ _) eq_refl). destruct ds; [easy|]. destruct neg; reflexivity.
Qed.
Lemma digits_chars ds d : digits_are ds d -> ds <> [] /\ Forall (digit_char wide) ds.
Proof. intros [NE V]. split; auto. apply value_dec_chars in V. eapply Forall_impl; [|exact V]. intros c H. now left. Qed.
Lemma digit_no_plus ds : Forall (digit_char wide) ds -> ~ In 43%N ds.
Proof. intros F I. rewrite Forall_forall in F. destruct (F _ I) as [K|K]; [lia|]. apply wide_ok in K. lia. Qed.
(** what [push_lines] does with a reference at the start of the text *)
Lemma line_ref_reference n r v s : reference (Z.of_N n) r v ->
  exists w, v = Z.of_N w /\
  (line_ref wide (r ++ s) = Some (None, s) /\ w = n \/
   exists neg ds d, line_ref wide (r ++ s) = Some (Some (neg, ds), s) /\ parse_usize ds = Some d /\
     (if (neg : bool) then w = (n - d)%N else (n + d <= usize_max)%N /\ w = (n + d)%N)).
Proof.
  assert (U : (usize_max = 2 ^ 64 - 1)%N) by reflexivity.
  intros [|a b ds d A B H L|a b ds d A B H L].
  - exists n. split; auto.
  - destruct (digits_chars _ _ H) as [NE F]. pose proof (value_is_nonneg 10 ds d (or_introl eq_refl) (proj2 H)). exists (n + Z.to_N d)%N. split; [lia|]. right. exists false, ds, (Z.to_N d). splits.
    + rewrite <- !app_assoc. now apply (line_ref_offset false).
    + apply parse_usize_digits; auto using digit_no_plus. rewrite Z2N.id by lia. split; auto. lia.
    + rewrite U. lia.
    + lia.
  - destruct (digits_chars _ _ H) as [NE F]. pose proof (value_is_nonneg 10 ds d (or_introl eq_refl) (proj2 H)). exists (n - Z.to_N d)%N. split; [lia|]. right. exists true, ds, (Z.to_N d). splits; auto.
    + rewrite <- !app_assoc. now apply (line_ref_offset true).
    + apply parse_usize_digits; auto using digit_no_plus. rewrite Z2N.id by lia. split; auto. lia.
Qed.
Lemma push_lines_complete n s t : expands wide n s t -> forall f, length s < f -> push_lines wide f (N.of_nat n) s = Val (t, []).
Proof.
  induction 1 as [|r v t s u R V X IH|c s u N X IH]; intros f F; (destruct f as [|f]; [lia|]).
  - reflexivity.
  - assert (LR : 0 < length r) by (destruct R; cbn; lia). rewrite app_length in F. cbn [push_lines].
    rewrite <- nat_N_Z in R. destruct (line_ref_reference _ _ _ s R) as (w & -> & [[-> ->]|(neg & ds & d & -> & -> & W)]).
    + rewrite IH by lia. cbn [bind]. apply numeral_show in V as ->. reflexivity.
    + apply numeral_show in V as ->. destruct neg.
      * cbn [bind]. rewrite IH by lia. cbn [bind]. now subst w.
      * destruct W as [W ->]. apply N.leb_le in W. rewrite W. cbn [bind]. rewrite IH by lia. reflexivity.
  - cbn [push_lines length] in *. pose proof (line_ref_spec (c :: s)) as Y. destruct (line_ref wide (c :: s)) as [[[[neg ds]|] rest]|].
    + exfalso. destruct Y as (a & b & Y & A & B & NE & D). apply (N (of_string "%(line" ++ a ++ [sign neg] ++ b ++ ds ++ of_string ")") rest); [rewrite Y; now rewrite <- !app_assoc|].
      right. exists a, (sign neg), b, ds. splits; auto. destruct neg; auto.
    + exfalso. apply (N _ rest Y). now left.
    + rewrite IH by lia. reflexivity.
Qed.
Lemma push_lines_sound n f : forall s t, length s < f -> push_lines wide f (N.of_nat n) s = Val (t, []) -> expands wide n s t.
Proof.
  assert (U : (usize_max = 2 ^ 64 - 1)%N) by reflexivity.
  induction f as [|f IH]; intros s t F H; [lia|]. cbn [push_lines] in H. pose proof (line_ref_spec s) as Y. destruct (line_ref wide s) as [[[[neg ds]|] rest]|].
  - destruct Y as (a & b & -> & A & B & NE & D). destruct (parse_usize ds) as [d|] eqn:P.
    2: { destruct neg; cbn [bind] in H; [|destruct (_ <=? _)%N; [|discriminate]; cbn [bind] in H]; destruct (push_lines wide f (N.of_nat n) rest) as [[u es]| |]; discriminate. }
    apply parse_usize_digits in P as [P L]; auto using digit_no_plus.
    assert (LR : length rest < f) by (rewrite !app_length in F; cbn in F; lia).
    destruct neg; cbn [bind] in H.
    + destruct (push_lines wide f (N.of_nat n) rest) as [[u es]| |] eqn:Q; try discriminate. cbn [bind] in H. injection H as <- E. subst es. apply IH in Q; auto.
      rewrite (app_assoc ds), (app_assoc b), (app_assoc [sign true]), (app_assoc a), (app_assoc (of_string "%(line")).
      eapply ex_ref; [|apply show_numeral|exact Q]. replace (Z.of_N (N.of_nat n - d)) with (Z.max 0 (Z.of_nat n - Z.of_N d)) by lia. apply (ref_minus _ a b ds (Z.of_N d)); auto. lia.
    + destruct (N.leb_spec (N.of_nat n + d) usize_max); [|discriminate]. cbn [bind] in H. destruct (push_lines wide f (N.of_nat n) rest) as [[u es]| |] eqn:Q; try discriminate. cbn [bind] in H. injection H as <- E. subst es. apply IH in Q; auto.
      rewrite (app_assoc ds), (app_assoc b), (app_assoc [sign false]), (app_assoc a), (app_assoc (of_string "%(line")).
      eapply ex_ref; [|apply show_numeral|exact Q]. replace (Z.of_N (N.of_nat n + d)) with (Z.of_nat n + Z.of_N d)%Z by lia. apply (ref_plus _ a b ds (Z.of_N d)); auto. lia.
  - subst s. rewrite app_length in F. cbn in F. destruct (push_lines wide f (N.of_nat n) rest) as [[u es]| |] eqn:Q; try discriminate. cbn [bind] in H. injection H as <- E. subst es. apply IH in Q; [|lia].
    eapply ex_ref; [|apply show_numeral|exact Q]. rewrite nat_N_Z. constructor.
  - destruct s as [|c s]; [injection H as <-; constructor|]. destruct (push_lines wide f (N.of_nat n) s) as [[u es]| |] eqn:Q; try discriminate. cbn [bind] in H. injection H as <- E. subst es. constructor; auto. apply IH; auto. cbn in F. lia.
Qed.
Lemma push_str_spec n s t : push_str wide n s = Val (t, []) <-> expands wide n s t.
Proof. unfold push_str. split; [apply push_lines_sound; lia|intros H; apply push_lines_complete; auto]. Qed.

(** ** Continued directives *)
Definition adds_more (kind : dkind) (collapse : bool) : list (nat * str) -> list (nat * str) -> str -> Prop :=
  if collapse then more wide kind trimmed trimmed (of_string " ") else more wide kind eq rtrimmed [92; 10]%N.
Lemma dkind_eqb_eq a b : dkind_eqb a b = true <-> a = b.
Proof. destruct a, b; split; intros H; try reflexivity; discriminate. Qed.
Lemma val_nil {A} (x : res (A * list serror)) (P : A -> Prop) : (exists a, x = Val (a, []) /\ P a) -> exists a e, x = Val (a, e) /\ e = [] /\ P a.
Proof. intros (a & -> & H). eauto. Qed.
Lemma continuation_sound kind collapse : forall ls t rest, continuation wide kind collapse ls = Val (t, [], rest) -> adds_more kind collapse ls rest t.
Proof.
  induction ls as [|[n l] ls IH]; intros t rest H; cbn [continuation] in H.
  { injection H as <- <-. unfold adds_more. destruct collapse; constructor. }
  destruct (raw_directive l) as [[k c]|] eqn:R.
  2: { exfalso. destruct (strip_last 92 l) as [st|]; destruct (push_str wide n _) as [[? ?]| |]; try discriminate; cbn [bind] in H; try discriminate.
       destruct (continuation wide kind collapse ls) as [[[? ?] ?]| |]; discriminate. }
  destruct (dkind_eqb k kind) eqn:K.
  2: { exfalso. destruct (strip_last 92 c) as [st|]; destruct (push_str wide n _) as [[? ?]| |]; try discriminate; cbn [bind] in H; try discriminate.
       destruct (continuation wide kind collapse ls) as [[[? ?] ?]| |]; discriminate. }
  apply dkind_eqb_eq in K as ->. apply says_raw in R. destruct (strip_last 92 c) as [st|] eqn:E.
  - apply strip_last_spec in E. destruct (push_str wide n _) as [[x e1]| |] eqn:P; try discriminate. cbn [bind] in H.
    destruct (continuation wide kind collapse ls) as [[[u e2] r']| |] eqn:C; try discriminate. cbn [bind app] in H. injection H as <- E2 <-.
    apply app_eq_nil in E2 as [-> ->]. apply push_str_spec in P. specialize (IH _ _ eq_refl). unfold adds_more in *. destruct collapse; eapply more_line; eauto; now apply trimmed_spec.
  - destruct (push_str wide n _) as [[x e1]| |] eqn:P; try discriminate. cbn [bind app] in H. injection H as <- -> <-. apply push_str_spec in P.
    assert (EN : ended c) by (intros y; now apply (proj1 (strip_last_none 92 c))).
    unfold adds_more. destruct collapse; eapply more_last; eauto; [rewrite trim_comm; now apply trimmed_spec|now apply rtrimmed_spec].
Qed.
Lemma says_self l k c : says l k c -> raw_directive l = Some (k, c). Proof. apply says_raw. Qed.
Lemma continuation_complete kind collapse ls rest t : adds_more kind collapse ls rest t -> continuation wide kind collapse ls = Val (t, [], rest).
Proof.
  assert (K : dkind_eqb kind kind = true) by now apply dkind_eqb_eq.
  unfold adds_more. destruct collapse; induction 1 as [|n l c s x t ls rest u S C ST X M IH|n l c x t ls S EN ST X]; cbn [continuation]; auto; rewrite (says_self _ _ _ S), K.
  - apply strip_last_spec in C. rewrite C. apply trimmed_spec in ST as ->. apply push_str_spec in X. rewrite X. cbn [bind]. rewrite IH. reflexivity.
  - apply (strip_last_none 92) in EN. rewrite EN, trim_comm. apply trimmed_spec in ST as ->. apply push_str_spec in X. rewrite X. reflexivity.
  - apply strip_last_spec in C. rewrite C. subst x. apply push_str_spec in X. rewrite X. cbn [bind]. rewrite IH. reflexivity.
  - apply (strip_last_none 92) in EN. rewrite EN. apply rtrimmed_spec in ST as ->. apply push_str_spec in X. rewrite X. reflexivity.
Qed.
Lemma parse_line_spec kind collapse n c ls t rest :
  parse_line wide kind collapse n c ls = Val (t, [], rest) <-> whole wide (adds_more kind collapse) n c ls rest t.
Proof.
  unfold parse_line. split.
  - destruct (strip_last 92 c) as [st|] eqn:E.
    + apply strip_last_spec in E. destruct (push_str wide n _) as [[x e1]| |] eqn:P; try discriminate. cbn [bind].
      destruct (continuation wide kind collapse ls) as [[[u e2] r']| |] eqn:C; try discriminate. cbn [bind]. intros [= <- E2 <-]. apply app_eq_nil in E2 as [-> ->].
      apply push_str_spec in P. eapply whole_more; eauto; [now apply ltrimmed_spec|now apply continuation_sound].
    + destruct (push_str wide n _) as [[x e1]| |] eqn:P; try discriminate. cbn [bind]. intros [= <- -> <-]. apply push_str_spec in P. eapply whole_one; eauto.
      * intros y. now apply (proj1 (strip_last_none 92 c)).
      * rewrite trim_comm. now apply trimmed_spec.
  - destruct 1 as [x t EN T X|s x t rest u C T X M].
    + apply (strip_last_none 92) in EN. rewrite EN, trim_comm. apply trimmed_spec in T as ->. apply push_str_spec in X. rewrite X. reflexivity.
    + apply strip_last_spec in C. rewrite C. apply ltrimmed_spec in T as ->. apply push_str_spec in X. rewrite X. cbn [bind]. rewrite (continuation_complete _ _ _ _ _ M). reflexivity.
Qed.
(** every directive takes its lines from the front *)
Lemma more_suffix k st se sep ls rest u : more wide k st se sep ls rest u -> length rest <= length ls.
Proof. induction 1; cbn; lia. Qed.
Lemma whole_suffix kind collapse n c ls rest t : whole wide (adds_more kind collapse) n c ls rest t -> length rest <= length ls.
Proof. destruct 1 as [|s x t rest u C T X M]; auto. unfold adds_more in M. destruct collapse; now apply more_suffix in M. Qed.

(** ** Substitutions *)
Lemma split_once_spec c s a b : split_once c s = Some (a, b) <-> s = a ++ c :: b /\ ~ In c a.
Proof.
  split.
  - revert a. induction s as [|x s IH]; intros a H; [discriminate|]. cbn in H. destruct (N.eqb_spec x c) as [->|N].
    + injection H as <- <-. split; auto.
    + destruct (split_once c s) as [[a' b']|]; [|discriminate]. injection H as <- <-. destruct (IH a' eq_refl) as [-> NI]. split; auto. intros [K|K]; auto.
  - intros [-> NI]. induction a as [|x a IH]; cbn; [now rewrite N.eqb_refl|]. destruct (N.eqb_spec x c) as [->|N]; [exfalso; apply NI; now left|]. rewrite IH; auto. intros K. apply NI. now right.
Qed.
Lemma split_once_none c s : split_once c s = None <-> ~ In c s.
Proof.
  split.
  - intros H I. apply in_split in I as I'. clear I'. induction s as [|x s IH]; auto. cbn in H. destruct (N.eqb_spec x c) as [->|N]; [discriminate|].
    destruct (split_once c s) as [[a b]|]; [discriminate|]. apply IH; auto. now destruct I.
  - intros NI. destruct (split_once c s) as [[a b]|] eqn:E; auto. apply split_once_spec in E as [-> _]. exfalso. apply NI, in_elt.
Qed.
Lemma letter_spec c : letter c = true <-> (97 <= c <= 122 \/ 65 <= c <= 90)%N.
Proof. unfold letter. rewrite orb_true_iff, !andb_true_iff, !N.leb_le. tauto. Qed.
Lemma valid_key_spec k : valid_key k = true <-> key_name k.
Proof.
  assert (F : forall m, forallb key_char m = true <-> Forall (fun c => c = 45 \/ c = 95 \/ c = 58 \/ 48 <= c <= 57 \/ 97 <= c <= 122 \/ 65 <= c <= 90)%N m).
  { intros m. rewrite forallb_forall, Forall_forall. assert (X : forall c, key_char c = true <-> (c = 45 \/ c = 95 \/ c = 58 \/ 48 <= c <= 57 \/ 97 <= c <= 122 \/ 65 <= c <= 90)%N).
    { intros c. unfold key_char. rewrite !orb_true_iff, !N.eqb_eq, ascii_digit_spec, letter_spec. tauto. }
    split; intros H c I; apply X; auto. }
  assert (G : forall c, key_first c = true <-> (c = 95 \/ 97 <= c <= 122 \/ 65 <= c <= 90)%N).
  { intros c. unfold key_first. rewrite orb_true_iff, N.eqb_eq, letter_spec. tauto. }
  unfold key_name. split.
  - intros H. destruct k as [|p [|q [|c r]]].
    1-3: exfalso; cbn in H; repeat match type of H with context [match ?x with _ => _ end] => destruct x end; discriminate.
    assert (P : p = 37%N /\ q = 123%N).
    { destruct (N.eq_dec p 37) as [->|N1]; [destruct (N.eq_dec q 123) as [->|N2]; auto|]; exfalso; unfold valid_key in H.
      - destruct q as [|q]; [discriminate|]. repeat (destruct q as [q|q|]; try discriminate; try congruence).
      - destruct p as [|p]; [discriminate|]. repeat (destruct p as [p|p|]; try discriminate; try congruence). }
    destruct P as [-> ->]. cbn [valid_key] in H. apply andb_true_iff in H as [H1 H2]. destruct (strip_last 125 r) as [m|] eqn:E; [|discriminate]. apply strip_last_spec in E as ->.
    exists c, m. splits; [reflexivity|now apply G|now apply F].
  - intros (c & m & -> & H1 & H2). change (of_string "%{" ++ c :: m ++ of_string "}") with (37%N :: 123%N :: c :: m ++ [125%N]). cbn [valid_key].
    rewrite (proj2 (strip_last_spec 125 (m ++ [125%N]) m) eq_refl). apply andb_true_iff. split; [now apply G|now apply F].
Qed.

(** ** Feature expressions *)
Lemma split_at_spec c s : split_at c s <> [] /\ s = join [c] (split_at c s) /\ (forall p, In p (split_at c s) -> ~ In c p).
Proof.
  induction s as [|x s (NE & E & NI)]; cbn [split_at].
  - splits; [easy|auto|]. intros p [<-|[]]. easy.
  - destruct (N.eqb_spec x c) as [->|N].
    + splits; [easy| |].
      * destruct (split_at c s) as [|h t]; [easy|]. cbn [join app]. now f_equal.
      * intros p [<-|I]; [easy|auto].
    + destruct (split_at c s) as [|h t]; [easy|]. splits; [easy| |].
      * rewrite E at 1. destruct t; reflexivity.
      * intros p [<-|I].
        -- intros [K|K]; [congruence|]. apply (NI h); [now left|auto].
        -- apply NI. now right.
Qed.
Lemma split_at_unique c s parts : parts <> [] -> s = join [c] parts -> (forall p, In p parts -> ~ In c p) -> parts = split_at c s.
Proof.
  intros NE. revert s. induction parts as [|p parts IH]; intros s E NI; [easy|]. assert (X : forall p r, ~ In c p -> split_at c (p ++ c :: r) = p :: split_at c r).
  { clear. induction p as [|x p IH]; intros r NI; cbn; [now rewrite N.eqb_refl|]. destruct (N.eqb_spec x c) as [->|N]; [exfalso; apply NI; now left|]. rewrite IH; auto. intros K. apply NI. now right. }
  assert (Y : forall p, ~ In c p -> split_at c p = [p]).
  { clear. induction p as [|x p IH]; intros NI; cbn; auto. destruct (N.eqb_spec x c) as [->|N]; [exfalso; apply NI; now left|]. rewrite IH; auto. intros K. apply NI. now right. }
  destruct parts as [|q parts].
  - cbn in E. subst s. symmetry. apply Y. apply NI. now left.
  - cbn [join] in E. subst s. cbn [app]. rewrite X by (apply NI; now left). f_equal. apply IH; auto; [easy|]. intros x I. apply NI. now right.
Qed.
Context (valid : str -> bool).
Lemma parse_bool_spec s e : parse_bool valid (trim s) = inl e <-> expr_of valid s e.
Proof.
  unfold parse_bool, expr_of. destruct (str_eqb (trim s) (of_string "*")) eqn:Q.
  - apply str_eqb_eq in Q. split.
    + intros [= <-]. exists (trim s). split; [now apply trimmed_spec|]. left. auto.
    + intros (t & T & [[-> ->]|[N _]]); auto. apply trimmed_spec in T as ->. contradiction.
  - assert (N : trim s <> of_string "*") by (intros X; apply str_eqb_eq in X; congruence). split.
    + intros H. exists (trim s). split; [now apply trimmed_spec|]. right. split; auto. destruct (BoolExpr_Model.parse valid (trim s)) as [x|x|]; try discriminate. now injection H as ->.
    + intros (t & T & H). apply trimmed_spec in T as ->. destruct H as [[X _]|[_ ->]]; [contradiction|reflexivity].
Qed.
Definition add_bools (k : dkind) (es : list BoolExpr_Model.expr) (s : script) : script := fold_left (fun s e => add_bool k e s) es s.
Lemma parse_bools_spec k parts : forall s s', parse_bools valid k parts s = (s', []) <-> exists es, Forall2 (expr_of valid) parts es /\ s' = add_bools k es s.
Proof.
  induction parts as [|p parts IH]; intros s s'; cbn [parse_bools].
  - split; [intros [= <-]; exists []; split; [constructor|reflexivity]|]. intros (es & F & ->). inversion F; subst. reflexivity.
  - destruct (parse_bool valid (trim p)) as [e|e] eqn:P.
    + rewrite IH. apply parse_bool_spec in P. split; intros (es & F & ->).
      * exists (e :: es). split; [now constructor|reflexivity].
      * inversion F as [|? e' ? es' X F']; subst. apply parse_bool_spec in P, X. rewrite P in X. injection X as <-. exists es'. split; auto.
    + split.
      * destruct (parse_bools valid k parts s). discriminate.
      * intros (es & F & _). inversion F as [|? e' ? es' X F']; subst. apply parse_bool_spec in X. congruence.
Qed.
Lemma exprs_spec k c s s' : parse_bools valid k (split_at 44 c) s = (s', []) <-> exists es, exprs_of valid c es /\ s' = add_bools k es s.
Proof.
  rewrite parse_bools_spec. unfold exprs_of. change (of_string ",") with [44%N]. split.
  - intros (es & F & ->). exists es. split; auto. destruct (split_at_spec 44 c) as (A & B & C). exists (split_at 44 c). auto.
  - intros (es & (parts & NE & E & NI & F) & ->). exists es. split; auto. now rewrite <- (split_at_unique 44 c parts).
Qed.

(** ** Scripts *)
Definition set_retries (v : N) (s : script) : script := mkScript (s_commands s) (s_requires s) (s_unsupported s) (s_xfails s) (Some v).
Definition add_item (i : item) (s : script) : option script :=
  match i with
  | IRun n t => Some (add_command (Run n t) s)
  | ISubst n k v b => Some (add_command (Subst n k v b) s)
  | IExprs k es => Some (add_bools k es s)
  | IRetries v => match s_retries s with None => Some (set_retries v s) | Some _ => None end
  end.
Fixpoint add_items (l : list item) (s : script) : option script :=
  match l with [] => Some s | i :: r => match add_item i s with Some s' => add_items r s' | None => None end end.
Lemma retries_spec c s s' : parse_int c s = (s', []) <-> exists v, retries_of c v /\ add_item (IRetries v) s = Some s'.
Proof.
  unfold parse_int, add_item. destruct (s_retries s) as [w|]; [split; [discriminate|now intros (v & _ & ?)]|].
  assert (R : forall v, retries_of c v <-> parse_usize (trim c) = Some v).
  { intros v. rewrite parse_usize_spec. unfold retries_of. split.
    - intros (t & ds & T & H). apply trimmed_spec in T as ->. eauto.
    - intros (ds & H). exists (trim c), ds. split; [now apply trimmed_spec|auto]. }
  destruct (parse_usize (trim c)) as [v|].
  - split; [intros [= <-]; exists v; split; auto; now apply R|]. intros (v' & H & [= <-]). apply R in H as [= ->]. reflexivity.
  - split; [discriminate|]. intros (v & H & _). apply R in H. discriminate.
Qed.
Lemma subst_spec n k t s s' : k = DDefine \/ k = DRedefine ->
  (parse_substitution n k t s = (s', []) <->
   (exists a b key value, t = a ++ of_string "=" ++ b /\ ~ In 61%N a /\ trimmed a key /\ key_name key /\ trimmed b value /\
      add_item (ISubst n key value (match k with DRedefine => true | _ => false end)) s = Some s') \/
   (~ In 61%N t /\ s' = s)).
Proof.
  intros K. unfold parse_substitution. change (of_string "=") with [61%N]. cbn [app add_item]. assert (KR : dkind_eqb k DRedefine = match k with DRedefine => true | _ => false end) by (destruct K as [->| ->]; reflexivity).
  destruct (split_once 61 t) as [[a b]|] eqn:E.
  - apply split_once_spec in E as [-> NI]. rewrite KR. destruct (valid_key (trim a)) eqn:V.
    + apply valid_key_spec in V. split.
      * intros [= <-]. left. exists a, b, (trim a), (trim b). splits; auto; now apply trimmed_spec.
      * intros [(a' & b' & key & value & E & NI' & T & _ & T' & [= <-])|[NE _]]; [|exfalso; apply NE, in_elt].
        apply app_sep_unique in E as [<- <-]; auto. apply trimmed_spec in T as ->. apply trimmed_spec in T' as ->. reflexivity.
    + split; [discriminate|]. intros [(a' & b' & key & value & E & NI' & T & V' & T' & _)|[NE _]]; [|exfalso; apply NE, in_elt].
      apply app_sep_unique in E as [<- <-]; auto. apply trimmed_spec in T as ->. apply valid_key_spec in V'. congruence.
  - apply (proj1 (split_once_none 61 t)) in E. split; [intros [= <-]; auto|]. intros [(a & b & key & value & -> & _)|[_ ->]]; auto. exfalso. apply E, in_elt.
Qed.
Lemma parse_lines_errors f : forall ls s es s' es', parse_lines wide valid f ls s es = Val (s', es') -> exists e, es' = es ++ e.
Proof.
  induction f as [|f IH]; intros ls s es s' es' H; cbn [parse_lines] in H; [injection H as _ <-; exists []; now rewrite app_nil_r|].
  destruct ls as [|[n l] ls]; [injection H as _ <-; exists []; now rewrite app_nil_r|].
  destruct (raw_directive l) as [[k c]|]; [|eauto].
  assert (G : forall ls s e, parse_lines wide valid f ls s (es ++ e) = Val (s', es') -> exists e, es' = es ++ e).
  { intros ls0 s0 e X. apply IH in X as (e' & ->). exists (e ++ e'). now rewrite app_assoc. }
  destruct k.
  1: { destruct (parse_line wide DRun false n c ls) as [[[t e] rest]| |]; try discriminate. cbn [bind] in H. eauto. }
  1-2: (destruct (parse_line wide _ true n c ls) as [[[t e] rest]| |]; try discriminate; cbn [bind] in H; destruct (parse_substitution _ _ _ _); eauto).
  1-3: (destruct (parse_bools _ _ _ _); eauto).
  - destruct (parse_int c s). eauto.
  - destruct (trim c); [injection H as _ <-; exists []; now rewrite app_nil_r|eauto].
Qed.
Lemma no_errors f ls s es s' : parse_lines wide valid f ls s es = Val (s', []) -> es = [].
Proof. intros H. apply parse_lines_errors in H as (e & E). symmetry in E. now apply app_eq_nil in E. Qed.
Lemma parse_lines_sound f : forall ls s s', length ls < f -> parse_lines wide valid f ls s [] = Val (s', []) ->
  exists is, means wide valid ls is /\ add_items is s = Some s'.
Proof.
  induction f as [|f IH]; intros ls s s' F H; [lia|]. cbn [parse_lines] in H. destruct ls as [|[n l] ls].
  { injection H as <-. exists []. split; [constructor|reflexivity]. }
  cbn [length] in F. destruct (raw_directive l) as [[k c]|] eqn:R.
  2: { apply IH in H as (is & M & A); [|lia]. exists is. split; auto. constructor; auto. now apply silent_raw. }
  apply says_raw in R. cbn [app] in H. destruct k.
  - destruct (parse_line wide DRun false n c ls) as [[[t e] rest]| |] eqn:P; try discriminate. cbn [bind] in H. pose proof (no_errors _ _ _ _ _ H) as ->. apply parse_line_spec in P. pose proof (whole_suffix _ _ _ _ _ _ _ P).
    apply IH in H as (is & M & A); [|lia]. exists (IRun n t :: is). split; [eapply m_run; eauto|exact A].
  - destruct (parse_line wide DDefine true n c ls) as [[[t e] rest]| |] eqn:P; try discriminate. cbn [bind] in H. destruct (parse_substitution n DDefine t s) as [s1 e'] eqn:S. pose proof (no_errors _ _ _ _ _ H) as E. apply app_eq_nil in E as [-> ->].
    apply parse_line_spec in P. pose proof (whole_suffix _ _ _ _ _ _ _ P). apply subst_spec in S; auto. apply IH in H as (is & M & A); [|lia].
    destruct S as [(a & b & key & value & -> & NI & T & K & T' & AI)|[NI ->]].
    + exists (ISubst n key value false :: is). split; [|cbn [add_items]; now rewrite AI]. eapply (m_subst wide valid n l DDefine); eauto.
    + exists is. split; auto. eapply (m_no_equals wide valid n l DDefine); eauto.
  - destruct (parse_line wide DRedefine true n c ls) as [[[t e] rest]| |] eqn:P; try discriminate. cbn [bind] in H. destruct (parse_substitution n DRedefine t s) as [s1 e'] eqn:S. pose proof (no_errors _ _ _ _ _ H) as E. apply app_eq_nil in E as [-> ->].
    apply parse_line_spec in P. pose proof (whole_suffix _ _ _ _ _ _ _ P). apply subst_spec in S; auto. apply IH in H as (is & M & A); [|lia].
    destruct S as [(a & b & key & value & -> & NI & T & K & T' & AI)|[NI ->]].
    + exists (ISubst n key value true :: is). split; [|cbn [add_items]; now rewrite AI]. eapply (m_subst wide valid n l DRedefine); eauto.
    + exists is. split; auto. eapply (m_no_equals wide valid n l DRedefine); eauto.
  - destruct (parse_bools valid DUnsupported (split_at 44 c) s) as [s1 e] eqn:P. pose proof (no_errors _ _ _ _ _ H) as ->. apply exprs_spec in P as (es & X & ->). apply IH in H as (is & M & A); [|lia].
    exists (IExprs DUnsupported es :: is). split; auto. eapply m_exprs; eauto.
  - destruct (parse_bools valid DRequires (split_at 44 c) s) as [s1 e] eqn:P. pose proof (no_errors _ _ _ _ _ H) as ->. apply exprs_spec in P as (es & X & ->). apply IH in H as (is & M & A); [|lia].
    exists (IExprs DRequires es :: is). split; auto. eapply m_exprs; eauto.
  - destruct (parse_bools valid DXfail (split_at 44 c) s) as [s1 e] eqn:P. pose proof (no_errors _ _ _ _ _ H) as ->. apply exprs_spec in P as (es & X & ->). apply IH in H as (is & M & A); [|lia].
    exists (IExprs DXfail es :: is). split; auto. eapply m_exprs; eauto.
  - destruct (parse_int c s) as [s1 e] eqn:P. pose proof (no_errors _ _ _ _ _ H) as ->. apply retries_spec in P as (v & X & AI). apply IH in H as (is & M & A); [|lia].
    exists (IRetries v :: is). split; [eapply m_retries; eauto|]. cbn [add_items]. now rewrite AI.
  - destruct (trim c) as [|x y] eqn:T.
    + injection H as <-. exists []. split; [|reflexivity]. eapply m_stop; eauto. now apply trim_nil.
    + apply IH in H as (is & M & A); [|lia]. exists is. split; auto. eapply m_end; eauto. intros B. apply trim_nil in B. congruence.
Qed.
Lemma parse_lines_complete ls is : means wide valid ls is -> forall f s s', length ls < f -> add_items is s = Some s' -> parse_lines wide valid f ls s [] = Val (s', []).
Proof.
  induction 1 as [|n l ls is S M IH|n l c ls S B|n l c ls is S B M IH|n l c ls rest t is S W M IH|n l k c ls rest a b key value is K S W NI T KN T' M IH|n l k c ls rest t is K S W NI M IH|n l k c ls es is K S X M IH|n l c ls v is S X M IH];
    intros f s s' F A; (destruct f as [|f]; [cbn in F; lia|]); cbn [parse_lines length] in *.
  - injection A as <-. reflexivity.
  - apply silent_raw in S. rewrite S. apply IH; auto. lia.
  - rewrite (says_self _ _ _ S). apply trim_nil in B. rewrite B. now injection A as <-.
  - rewrite (says_self _ _ _ S). destruct (trim c) eqn:T; [exfalso; now apply B, trim_nil|]. apply IH; auto. lia.
  - rewrite (says_self _ _ _ S). pose proof (whole_suffix DRun false _ _ _ _ _ W). apply (parse_line_spec DRun false) in W. rewrite W. cbn [bind app]. apply IH; auto. lia.
  - rewrite (says_self _ _ _ S). pose proof (whole_suffix k true _ _ _ _ _ W). apply (parse_line_spec k true) in W.
    assert (P : forall s', add_item (ISubst n key value (match k with DRedefine => true | _ => false end)) s = Some s' -> parse_substitution n k (a ++ of_string "=" ++ b) s = (s', [])).
    { intros x X. apply subst_spec; auto. left. exists a, b, key, value. auto 7. }
    cbn [add_items] in A. destruct (add_item _ s) as [s1|]; [|discriminate]. specialize (P s1 eq_refl). destruct K as [->| ->]; rewrite W; cbn [bind]; rewrite P; apply IH; auto; lia.
  - rewrite (says_self _ _ _ S). pose proof (whole_suffix k true _ _ _ _ _ W). apply (parse_line_spec k true) in W.
    assert (P : parse_substitution n k t s = (s, [])) by (apply subst_spec; auto). destruct K as [->| ->]; rewrite W; cbn [bind]; rewrite P; apply IH; auto; lia.
  - rewrite (says_self _ _ _ S). assert (P : parse_bools valid k (split_at 44 c) s = (add_bools k es s, [])) by (apply exprs_spec; eauto).
    destruct K as [->|[->| ->]]; rewrite P; apply IH; auto; lia.
  - rewrite (says_self _ _ _ S). cbn [add_items] in A. destruct (add_item (IRetries v) s) as [s1|] eqn:E; [|discriminate]. assert (P : parse_int c s = (s1, [])) by (apply retries_spec; eauto). rewrite P. apply IH; auto. lia.
Qed.
Definition plain (i : item) : Prop := match i with IExprs k _ => k = DRequires \/ k = DUnsupported \/ k = DXfail | _ => True end.
Lemma means_plain ls is : means wide valid ls is -> Forall plain is.
Proof. induction 1; auto; constructor; auto; exact I. Qed.
Lemma add_bools_spec k es : forall s,
  s_commands (add_bools k es s) = s_commands s /\ s_retries (add_bools k es s) = s_retries s /\
  s_requires (add_bools k es s) = s_requires s ++ (match k with DRequires => es | _ => [] end) /\
  s_unsupported (add_bools k es s) = s_unsupported s ++ (match k with DUnsupported => es | _ => [] end) /\
  s_xfails (add_bools k es s) = s_xfails s ++ (match k with DRequires | DUnsupported => [] | _ => es end).
Proof.
  induction es as [|e es IH]; intros s.
  - destruct k; cbn; rewrite ?app_nil_r; auto.
  - change (add_bools k (e :: es) s) with (add_bools k es (add_bool k e s)). destruct (IH (add_bool k e s)) as (A & B & C & D & E). rewrite A, B, C, D, E.
    destruct k; cbn; rewrite ?app_nil_r, <- ?app_assoc; auto.
Qed.
Lemma script_eq a b : s_commands a = s_commands b -> s_requires a = s_requires b -> s_unsupported a = s_unsupported b -> s_xfails a = s_xfails b -> s_retries a = s_retries b -> a = b.
Proof. destruct a, b. cbn. congruence. Qed.
Lemma add_items_spec is : Forall plain is -> forall s s', add_items is s = Some s' <->
  s_commands s' = s_commands s ++ flat_map command_of is /\
  s_requires s' = s_requires s ++ flat_map (exprs_of_kind DRequires) is /\
  s_unsupported s' = s_unsupported s ++ flat_map (exprs_of_kind DUnsupported) is /\
  s_xfails s' = s_xfails s ++ flat_map (exprs_of_kind DXfail) is /\
  (retries_in is = [] /\ s_retries s' = s_retries s \/ exists v, retries_in is = [v] /\ s_retries s = None /\ s_retries s' = Some v).
Proof.
  induction 1 as [|i is PI P IH]; intros s s'.
  - cbn. rewrite !app_nil_r. split; [intros [= <-]; splits; auto|]. intros (A & B & C & D & [[_ E]|(v & E & _)]); [|discriminate]. f_equal. now apply script_eq.
  - cbn [add_items flat_map]. destruct i as [n t|n key v b|k es|v]; cbn [add_item].
    + rewrite IH. cbn. rewrite <- !app_assoc. reflexivity.
    + rewrite IH. cbn. rewrite <- !app_assoc. reflexivity.
    + rewrite IH. destruct (add_bools_spec k es s) as (A & B & C & D & E). rewrite A, B, C, D, E, <- !app_assoc. destruct PI as [->|[->| ->]]; reflexivity.
    + unfold retries_in. cbn [flat_map app]. fold (retries_in is). destruct (s_retries s) as [w|] eqn:R.
      * split; [discriminate|]. intros (_ & _ & _ & _ & [[E _]|(x & _ & E & _)]); discriminate.
      * rewrite IH. cbn. split.
        -- intros (A & B & C & D & [[E E']|(x & E & E' & _)]); [|discriminate]. splits; auto. right. exists v. now rewrite E.
        -- intros (A & B & C & D & [[E _]|(x & E & _ & E')]); [discriminate|]. splits; auto. left. injection E as -> ->. auto.
Qed.
Lemma parse_lines_spec text sc :
  parse wide valid text = Val (inl sc) <-> exists is, means wide valid (lines_of text) is /\ makes is sc.
Proof.
  unfold parse. split.
  - intros H. destruct (parse_lines wide valid _ _ _ _) as [[s es]| |] eqn:P; try discriminate. cbn [bind] in H.
    destruct (existsb is_run (s_commands s)) eqn:X.
    2: { destruct (es ++ [MissingRun]) eqn:Y; [now destruct es|discriminate]. }
    destruct es; [|discriminate]. injection H as ->. apply parse_lines_sound in P as (is & M & A); [|lia]. exists is. split; auto.
    apply (add_items_spec is (means_plain _ _ M)) in A as (A & B & C & D & E). unfold makes. cbn [empty_script s_commands s_requires s_unsupported s_xfails s_retries app] in *. splits; auto.
    + apply existsb_exists in X as (cm & I & X). rewrite A in I. apply in_flat_map in I as (i & I & J). destruct i; cbn in J; try (now destruct J); destruct J as [<-|[]]; [eauto|discriminate].
    + destruct E as [E|(v & E & _ & E')]; eauto.
  - intros (is & M & (A & B & C & D & (n & t & I) & E)).
    assert (AI : add_items is empty_script = Some sc).
    { apply (add_items_spec is (means_plain _ _ M)). splits; auto. destruct E as [E|(v & E & E')]; [auto|right; eauto]. }
    rewrite (parse_lines_complete _ _ M _ _ _ ltac:(auto) AI). cbn [bind].
    assert (X : existsb is_run (s_commands sc) = true). { apply existsb_exists. exists (Run n t). split; auto. rewrite A. apply in_flat_map. exists (IRun n t). split; auto. now left. }
    now rewrite X.
Qed.
Theorem parse_spec text sc : terminated text ->
  (parse wide valid text = Val (inl sc) <-> exists nls is, numbered text nls /\ means wide valid nls is /\ makes is sc).
Proof.
  intros T. rewrite parse_lines_spec. split.
  - intros (is & M & K). exists (lines_of text), is. splits; auto. now apply numbered_lines.
  - intros (nls & is & NL & M & K). apply numbered_lines in NL as ->; eauto.
Qed.
End Wide.
