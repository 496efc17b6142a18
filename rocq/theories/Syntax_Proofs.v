(** From the way a regular expression is written to the compiled one (C98). *)
From Coq Require Import String Lia.
From Verif Require Import Base Text_Model Text_Spec Regex_Model Regex_Spec Regex_Proofs Regex_Engine Regex_Frame Choice_Spec Syntax_Spec.
Open Scope list_scope.
Open Scope nat_scope.
Notation length := List.length.

(** * Characters *)
Lemma in_ranges_cons a b l c : in_ranges ((a, b) :: l) c = true <-> span_of a b c \/ in_ranges l c = true.
Proof.
  unfold in_ranges at 1. cbn [existsb fst snd]. rewrite Bool.orb_true_iff, Bool.andb_true_iff, !N.leb_le. unfold span_of. tauto.
Qed.
Lemma in_ranges_nil c : in_ranges [] c = true <-> False.
Proof. cbn. split; [discriminate | tauto]. Qed.
Lemma in_ranges_app l m c : in_ranges (l ++ m) c = true <-> in_ranges l c = true \/ in_ranges m c = true.
Proof. unfold in_ranges. rewrite existsb_app, Bool.orb_true_iff. tauto. Qed.
Lemma chr_set c x : in_ranges [(c, c)] x = true <-> x = c.
Proof. rewrite in_ranges_cons, in_ranges_nil. unfold span_of. lia. Qed.
Lemma digits_set x : in_ranges digits_ x = true <-> digit x.
Proof. unfold digits_. rewrite in_ranges_cons, in_ranges_nil. unfold digit. tauto. Qed.
Lemma word_set x : in_ranges word_ x = true <-> word x.
Proof. unfold word_. rewrite !in_ranges_cons, in_ranges_nil. unfold word, digit, upper, lower, span_of. lia. Qed.
Lemma space_set x : in_ranges space_ x = true <-> space x.
Proof. unfold space_. rewrite !in_ranges_cons, in_ranges_nil. unfold space, span_of. lia. Qed.

Lemma swap_other c : swap_case c = c /\ (forall d, ~ other_case c d) \/ other_case c (swap_case c) /\ (forall d, other_case c d -> d = swap_case c).
Proof.
  unfold swap_case, other_case, upper, lower, span_of.
  destruct ((65 <=? c) && (c <=? 90))%N%bool eqn:A.
  - right. apply Bool.andb_true_iff in A as [A1 A2]. apply N.leb_le in A1, A2. split; [lia | intros d; lia].
  - destruct ((97 <=? c) && (c <=? 122))%N%bool eqn:B.
    + right. apply Bool.andb_true_iff in B as [B1 B2]. apply N.leb_le in B1, B2. split; [lia | intros d; lia].
    + left. split; [reflexivity|]. intros d. apply Bool.andb_false_iff in A, B. rewrite !N.leb_gt in A, B. lia.
Qed.
Lemma set_means ci neg l (P : N -> Prop) : (forall c, in_ranges l c = true <-> P c) -> forall c, in_set ci (mkSet neg l) c = true <-> one_of_set ci neg P c.
Proof.
  intros L c. unfold in_set, one_of_set. cbn [negated ranges].
  assert (B : (in_ranges l c || ci && in_ranges l (swap_case c))%bool = true <-> P c \/ ci = true /\ exists d, other_case c d /\ P d).
  { rewrite Bool.orb_true_iff, Bool.andb_true_iff, !L. destruct (swap_other c) as [[E F] | [E F]].
    - rewrite E. firstorder.
    - split; [intros [H | [H1 H2]]; [tauto | right; split; [assumption | exists (swap_case c); tauto]]|].
      intros [H | (H1 & d & H2 & H3)]; [tauto | right]. rewrite <- (F d H2). tauto. }
  destruct neg.
  - rewrite <- B. destruct (_ || _)%bool; cbn; split; congruence.
  - rewrite <- B. destruct (_ || _)%bool; cbn; split; congruence.
Qed.

(** ** The tables *)
Lemma punctuation_char c : punctuation c -> escaped_char c = Some c.
Proof.
  intros H. apply meta_escaped. unfold is_meta. apply existsb_exists. exists c. split; [exact H | apply N.eqb_refl].
Qed.
Lemma control_char l c : control l c -> escaped_char l = Some c.
Proof. unfold control. cbn [In]. intros H. repeat destruct H as [H | H]; try (injection H as <- <-; reflexivity). contradiction. Qed.
Lemma char_not_class l c : escaped_char l = Some c -> escaped_class l = None.
Proof.
  unfold escaped_char, escaped_class, is_meta, meta. intros H.
  destruct (N.eqb_spec l 100) as [-> | A]; [discriminate H|]. destruct (N.eqb_spec l 115) as [-> | B]; [discriminate H|].
  destruct (N.eqb_spec l 119) as [-> | C]; [discriminate H|]. reflexivity.
Qed.
Lemma class_of l P : class_letter l false P -> escaped_char l = None /\ exists s, escaped_class l = Some s /\ forall c, in_ranges s c = true <-> P c.
Proof.
  intros H. inversion H; subst; (split; [reflexivity|]); eexists; (split; [reflexivity|]).
  - apply digits_set. - apply space_set. - apply word_set.
Qed.
Lemma class_not_of l P : class_letter l true P -> escaped_char l = None /\ escaped_class l = None /\ exists s, escaped_not_class l = Some s /\ forall c, in_ranges s c = true <-> P c.
Proof.
  intros H. inversion H; subst; (split; [reflexivity|]); (split; [reflexivity|]); eexists; (split; [reflexivity|]).
  - apply digits_set. - apply space_set. - apply word_set.
Qed.
Lemma named_of name P : named_class name P -> exists s, posix (of_string name) = Some s /\ forall c, in_ranges s c = true <-> P c.
Proof.
  intros H. destruct H; eexists; (split; [reflexivity|]); intros c;
    first [apply digits_set | apply word_set | apply space_set | rewrite !in_ranges_cons, in_ranges_nil; unfold digit, upper, lower, span_of; lia].
Qed.
Lemma named_letters name P : named_class name P -> Forall (fun c => is_letter c = true) (of_string name).
Proof. intros H. destruct H; repeat constructor. Qed.
Lemma take_all p s c r : Forall (fun x => p x = true) s -> p c = false -> take_while p (s ++ c :: r) = (s, c :: r).
Proof.
  intros H Hc. induction H as [|x s Hx Hs IH]; cbn [app take_while]; [rewrite Hc; reflexivity|]. rewrite Hx, IH. reflexivity.
Qed.

(** * Bracket expressions *)
Lemma bracket_ends first s P : bracket first s P -> exists s', s = s' ++ [93%N].
Proof.
  induction 1 as [|rest P A _ [s' ->] | first t x rest P A B C _ [s' ->] | first t x u y rest P A B C D E _ [s' ->] | first l Q rest P A _ [s' ->] | first name Q rest P A _ [s' ->]].
  - exists []. reflexivity.
  - exists (93%N :: s'). reflexivity.
  - exists (t ++ s'). rewrite app_assoc. reflexivity.
  - exists (t ++ 45%N :: u ++ s'). rewrite <- app_assoc. cbn [app]. rewrite <- app_assoc. reflexivity.
  - exists (92%N :: l :: s'). reflexivity.
  - exists (of_string "[:" ++ of_string name ++ of_string ":]" ++ s'). rewrite <- !app_assoc. reflexivity.
Qed.
Lemma bracket_nil first P : ~ bracket first [] P.
Proof. intros H. apply bracket_ends in H as [s' H]. destruct s'; discriminate H. Qed.
(** what follows a character, with the rest of the text *)
Lemma no_range first s P t : bracket first s P -> ~ begins_range s ->
  exists d r, s ++ t = d :: r /\ (N.eqb d 45 && match r with y :: _ => negb (N.eqb y 93) && negb (N.eqb y 45) | [] => false end)%bool = false.
Proof.
  intros H N. destruct s as [|d s]; [apply bracket_nil in H; contradiction|]. exists d, (s ++ t). split; [reflexivity|].
  destruct (N.eqb_spec d 45) as [-> | D]; [|reflexivity]. cbn [andb]. destruct s as [|y s].
  - apply bracket_ends in H as [s' H]. destruct s' as [|? [|]]; discriminate H.
  - cbn [app]. destruct (N.eqb_spec y 93) as [-> | Y]; [reflexivity|]. destruct (N.eqb_spec y 45) as [-> | Z]; [reflexivity|].
    exfalso. apply N. exists y, s. tauto.
Qed.
Lemma bracket_char_reads t x : bracket_char t x -> exists c t', t = c :: t' /\ c <> 93%N /\ c <> 91%N /\ forall r, class_char (t ++ r) = Some (x, r).
Proof.
  intros H. inversion H as [c A B C | c A | l c A]; subst; eexists _, _; (split; [reflexivity|]).
  - split; [assumption|]. split; [assumption|]. intros r. cbn [app class_char]. destruct (N.eqb_spec x 92) as [-> | D]; [contradiction | reflexivity].
  - split; [discriminate|]. split; [discriminate|]. intros r. cbn [app class_char]. cbn [N.eqb Pos.eqb]. rewrite (punctuation_char x A). reflexivity.
  - split; [discriminate|]. split; [discriminate|]. intros r. cbn [app class_char]. cbn [N.eqb Pos.eqb]. rewrite (control_char l x A). reflexivity.
Qed.
(** the start of an item that is a character *)
Lemma class_items_char k first t x s acc : bracket_char t x -> (forall c, t = [c] -> ~ doubled c s) ->
  class_items (S k) first (t ++ s) acc =
    match s with
    | d :: r2 =>
        if (N.eqb d 45 && match r2 with y :: _ => negb (N.eqb y 93) && negb (N.eqb y 45) | [] => false end)%bool then
          match class_char r2 with
          | Some (y, r3) => if (x <=? y)%N then class_items k false r3 (acc ++ [(x, y)]) else None
          | None => None
          end
        else class_items k false s (acc ++ [(x, x)])
    | [] => None
    end.
Proof.
  intros H D. destruct H as [c A B C | c A | l c A].
  - cbn [app class_items class_char].
    rewrite (proj2 (N.eqb_neq c 93) C), (proj2 (N.eqb_neq c 91) B), (proj2 (N.eqb_neq c 92) A). cbn [andb].
    destruct s as [|d s]; [reflexivity|]. 
    assert (DD : (N.eqb c d && (N.eqb c 38 || N.eqb c 45 || N.eqb c 126))%bool = false).
    { destruct (N.eqb_spec c d) as [-> | X]; [|reflexivity]. specialize (D _ eq_refl). unfold doubled in D.
      destruct (N.eqb_spec d 38) as [-> | Y1]; [exfalso; apply D; split; [left; reflexivity | eauto]|].
      destruct (N.eqb_spec d 45) as [-> | Y2]; [exfalso; apply D; split; [right; left; reflexivity | eauto]|].
      destruct (N.eqb_spec d 126) as [-> | Y3]; [exfalso; apply D; split; [right; right; left; reflexivity | eauto]|]. reflexivity. }
    rewrite DD. reflexivity.
  - cbn [app class_items class_char N.eqb Pos.eqb andb orb]. rewrite Bool.andb_false_r.
    rewrite (char_not_class c c (punctuation_char c A)), (punctuation_char c A). cbn [option_map]. reflexivity.
  - cbn [app class_items class_char N.eqb Pos.eqb andb orb]. rewrite Bool.andb_false_r.
    rewrite (char_not_class l c (control_char l c A)), (control_char l c A). cbn [option_map]. reflexivity.
Qed.
Lemma bracket_lex first s P : bracket first s P -> forall k t acc, length s <= k ->
  exists l, class_items k first (s ++ t) acc = Some (acc ++ l, t) /\ forall c, in_ranges l c = true <-> P c.
Proof.
  induction 1 as [|rest P A B IH | first t x rest P A B C D IH | first t x u y rest P A B C D E F IH | first l Q rest P A B IH | first name Q rest P A B IH]; intros k tail acc K.
  - exists []. destruct k; [cbn in K; lia|]. cbn [app class_items N.eqb Pos.eqb negb andb]. rewrite app_nil_r. split; [reflexivity | apply in_ranges_nil].
  - destruct k; [cbn in K; lia|]. cbn [length] in K.
    destruct (IH k tail (acc ++ [(93, 93)%N]) ltac:(lia)) as (l & IH1 & IH2).
    exists ((93, 93)%N :: l). split.
    + destruct (no_range _ _ _ tail B A) as (d & r & E & F).
      cbn [app class_items N.eqb Pos.eqb negb andb orb]. rewrite E in IH1 |- *.
      cbn [class_char N.eqb Pos.eqb]. rewrite Bool.andb_false_r. rewrite F. rewrite IH1, <- app_assoc. reflexivity.
    + intros c. rewrite in_ranges_cons, IH2. unfold span_of. split; intros [G | G]; try (right; assumption); left; lia.
  - destruct (bracket_char_reads t x A) as (c0 & t' & E & _). destruct k; [rewrite E in K; cbn in K; lia|].
    destruct (IH k tail (acc ++ [(x, x)]) ltac:(rewrite E, app_length in K; cbn [length] in K; lia)) as (l & IH1 & IH2).
    exists ((x, x) :: l). split.
    + rewrite <- app_assoc. destruct (no_range _ _ _ tail D B) as (d & r & E2 & F).
      rewrite (class_items_char k first t x _ _ A).
      * rewrite E2 in IH1 |- *. rewrite F, IH1, <- app_assoc. reflexivity.
      * intros c -> [G1 [r' G2]]. apply C. exists c. split; [reflexivity|]. split; [exact G1|].
        destruct rest as [|z rest]; [apply bracket_nil in D; contradiction|]. exists rest. cbn [app] in G2. congruence.
    + intros c. rewrite in_ranges_cons, IH2. unfold span_of. split; intros [G | G]; try (right; assumption); left; lia.
  - destruct (bracket_char_reads t x A) as (c0 & t' & Et & _).
    destruct (bracket_char_reads u y B) as (d0 & u' & Eu & Y1 & _ & R).
    destruct k; [rewrite Et in K; cbn in K; lia|].
    destruct (IH k tail (acc ++ [(x, y)]) ltac:(rewrite app_length in K; cbn [length] in K; rewrite app_length, Et in K; cbn [length] in K; lia)) as (l & IH1 & IH2).
    exists ((x, y) :: l). split.
    + rewrite <- app_assoc. cbn [app]. rewrite <- app_assoc. rewrite (class_items_char k first t x _ _ A).
      * cbn [N.eqb Pos.eqb andb]. rewrite R. rewrite Eu in *. cbn [app].
        rewrite (proj2 (N.eqb_neq d0 93) Y1).
        assert (d0 <> 45%N). { intros ->. inversion B; subst. apply D. reflexivity. }
        rewrite (proj2 (N.eqb_neq d0 45) H). cbn [negb andb]. rewrite (proj2 (N.leb_le x y) C), IH1, <- app_assoc. reflexivity.
      * intros c -> [G1 [r' G2]]. injection G2 as <- _. apply E. reflexivity.
    + intros c. rewrite in_ranges_cons, IH2. tauto.
  - destruct k; [cbn in K; lia|]. cbn [length] in K. destruct (class_of l Q A) as (_ & s & S1 & S2).
    destruct (IH k tail (acc ++ s) ltac:(lia)) as (l' & IH1 & IH2). exists (s ++ l'). split.
    + cbn [app class_items N.eqb Pos.eqb andb orb]. rewrite Bool.andb_false_r. rewrite S1. cbn [option_map]. rewrite IH1, <- app_assoc. reflexivity.
    + intros c. rewrite in_ranges_app, S2, IH2. tauto.
  - destruct k; [cbn in K; lia|]. destruct (named_of name Q A) as (s & S1 & S2).
    destruct (IH k tail (acc ++ s) ltac:(rewrite !app_length in K; cbn [length] in K; change (length (of_string "[:")) with 2 in K; lia)) as (l' & IH1 & IH2).
    exists (s ++ l'). split.
    + change (of_string "[:") with [91; 58]%N. change (of_string ":]") with [58; 93]%N. rewrite <- !app_assoc.
      cbn [app class_items N.eqb Pos.eqb andb].
      replace (of_string name ++ [58%N; 93%N] ++ rest ++ tail) with (of_string name ++ 58%N :: 93%N :: rest ++ tail) by reflexivity.
      rewrite (take_all is_letter (of_string name) 58%N _ (named_letters name Q A) eq_refl).
      cbn [N.eqb Pos.eqb andb]. rewrite S1, IH1, <- app_assoc. reflexivity.
    + intros c. rewrite in_ranges_app, S2, IH2. tauto.
Qed.

(** * Places *)
Lemma word_at_ok b i : is_word_at b i = true <-> word_at b i.
Proof.
  unfold is_word_at, word_at, byte_at. destruct (nth_error b i) as [c|].
  - rewrite word_set. split; [eauto | intros (c' & E & W)]. injection E as ->. exact W.
  - split; [discriminate | intros (c' & E & _); discriminate E].
Qed.
Lemma word_before_ok b i : Regex_Model.word_before b i = true <-> word_before_ b i.
Proof.
  unfold Regex_Model.word_before, word_before_. destruct i as [|k].
  - split; [discriminate | intros (k & E & _); discriminate E].
  - rewrite word_at_ok. split; [eauto | intros (k' & E & W)]. injection E as ->. exact W.
Qed.
Lemma boundary_ok b i : xorb (Regex_Model.word_before b i) (is_word_at b i) = true <-> boundary b i.
Proof.
  unfold boundary. rewrite <- word_at_ok, <- word_before_ok. destruct (Regex_Model.word_before b i), (is_word_at b i); cbn; intuition congruence.
Qed.
Lemma bol_ok b i : look_ok b LBol i = true <-> line_begins b i.
Proof.
  unfold line_begins, byte_at. cbn [look_ok]. destruct i as [|k]; [tauto|]. destruct (nth_error b k) as [c|] eqn:E.
  - rewrite N.eqb_eq. split; [intros ->; right; eauto | intros [H | (k' & H1 & H2)]; [discriminate H|]]. injection H1 as <-. congruence.
  - split; [discriminate | intros [H | (k' & H1 & H2)]; [discriminate H|]]. injection H1 as <-. congruence.
Qed.
Lemma eol_ok b i : look_ok b LEol i = true <-> line_ends b i.
Proof.
  unfold line_ends, byte_at. cbn [look_ok]. destruct (nth_error b i) as [c|] eqn:E.
  - assert (i < length b) by (apply nth_error_Some; congruence). rewrite N.eqb_eq. split; [intros ->; tauto | intros [H0 | H0]; [lia | congruence]].
  - apply nth_error_None in E. tauto.
Qed.

(** * Words *)
Section Tokens.
Context (ci : bool).
Inductive as_token : xtok -> rtok -> Prop :=
| at_one P s : (forall c, P c <-> in_set ci s c = true) -> as_token (TOne P) (KSet s)
| at_here Q l : (forall b i, Q b i <-> look_ok b l i = true) -> as_token (THere Q) (KLook l)
| at_open n : as_token (TOpen n) (KOpen (Some n))
| at_plain : as_token TOpenPlain (KOpen None)
| at_close : as_token TClose KClose
| at_bar : as_token TBar KBar
| at_rep lo hi g : as_token (TRep lo hi g) (KPost lo hi g).

Lemma at_set neg l P : (forall c, in_ranges l c = true <-> P c) -> as_token (TOne (one_of_set ci neg P)) (KSet (mkSet neg l)).
Proof using. intros H. constructor. intros c. rewrite set_means by exact H. reflexivity. Qed.
Lemma at_chr c : as_token (TOne (one_of_set ci false (fun x => x = c))) (KSet (chr c)).
Proof using. apply at_set. intros x. apply chr_set. Qed.

Lemma decimal_digits s n : decimal s n -> Forall (fun c => is_digit c = true) s /\ s <> [] /\ number_of s = n.
Proof using.
  assert (D : forall d, digit d -> is_digit d = true).
  { intros d [A B]. unfold is_digit. apply Bool.andb_true_iff. split; apply N.leb_le; assumption. }
  induction 1 as [d Hd | s n d _ (IH1 & IH2 & IH3) Hd].
  - split; [constructor; [apply D, Hd | constructor]|]. split; [discriminate | reflexivity].
  - split; [apply Forall_app; split; [exact IH1 | constructor; [apply D, Hd | constructor]]|]. split; [destruct s; discriminate|].
    unfold number_of in *. rewrite fold_left_app. cbn [fold_left]. rewrite IH3. reflexivity.
Qed.
Lemma count_exact s n r : decimal s n -> lex_count (s ++ 125%N :: r) = Some (n, Some n, r).
Proof using.
  intros H. destruct (decimal_digits s n H) as (A & B & C). unfold lex_count. rewrite take_all by (assumption || reflexivity).
  destruct s as [|c s]; [contradiction|]. cbn [N.eqb Pos.eqb]. rewrite C. reflexivity.
Qed.
Lemma count_from s n r : decimal s n -> lex_count (s ++ 44%N :: 125%N :: r) = Some (n, None, r).
Proof using.
  intros H. destruct (decimal_digits s n H) as (A & B & C). unfold lex_count. rewrite take_all by (assumption || reflexivity).
  destruct s as [|c s]; [contradiction|]. cbn [N.eqb Pos.eqb]. change (take_while is_digit (125%N :: r)) with (@nil N, 125%N :: r).
  cbn [N.eqb Pos.eqb]. rewrite C. reflexivity.
Qed.
Lemma count_between s n t m r : decimal s n -> decimal t m -> n <= m -> lex_count (s ++ 44%N :: t ++ 125%N :: r) = Some (n, Some m, r).
Proof using.
  intros H H' L. destruct (decimal_digits s n H) as (A & B & C). destruct (decimal_digits t m H') as (A' & B' & C').
  unfold lex_count. rewrite take_all by (assumption || reflexivity).
  destruct s as [|c s]; [contradiction|]. cbn [N.eqb Pos.eqb]. rewrite take_all by (assumption || reflexivity).
  cbn [N.eqb Pos.eqb]. destruct t as [|d t]; [contradiction|]. rewrite C, C', (proj2 (Nat.leb_le n m) L). reflexivity.
Qed.
Lemma name_reads n r : name_ok n -> lex_name (n ++ 62%N :: r) = Some (n, r).
Proof using.
  intros (c & t & -> & Hc & Ht). unfold lex_name.
  assert (L : forall c, upper c \/ lower c \/ c = 95%N -> is_letter c = true).
  { intros x Hx. unfold is_letter, upper, lower, span_of in *. rewrite !Bool.orb_true_iff, !Bool.andb_true_iff, !N.leb_le, N.eqb_eq. lia. }
  rewrite (take_all _ (c :: t)).
  - cbn [N.eqb Pos.eqb andb]. rewrite (L c Hc). reflexivity.
  - constructor; [rewrite (L c Hc); reflexivity|]. eapply Forall_impl; [|exact Ht]. intros x [Hx | Hx].
    + apply Bool.orb_true_iff. right. destruct Hx as [H1 H2]. unfold is_digit. apply Bool.andb_true_iff. split; apply N.leb_le; assumption.
    + apply Bool.orb_true_iff. left. apply L. exact Hx.
  - reflexivity.
Qed.
Definition no_question (r : str) : Prop := forall r', r <> 63%N :: r'.
Lemma lazy_none r : no_question r -> lazy_mark r = (true, r).
Proof using. intros H. destruct r as [|c r]; [reflexivity|]. cbn. destruct (N.eqb_spec c 63) as [-> | D]; [exfalso; exact (H r eq_refl) | reflexivity]. Qed.
Lemma times_lex s lo hi : times s lo hi -> exists c t, s = c :: t /\ forall r, lex_one c (t ++ r) = let '(g, r') := lazy_mark r in Some (KPost lo hi g, r').
Proof using.
  intros H. destruct H as [| | |s n H|s n H|s n t m H H' L].
  - eexists _, _. split; [reflexivity|]. reflexivity.
  - eexists _, _. split; [reflexivity|]. reflexivity.
  - eexists _, _. split; [reflexivity|]. reflexivity.
  - exists 123%N, (s ++ [125%N]). split; [reflexivity|]. intros r. rewrite <- app_assoc. cbn [app].
    unfold lex_one. cbn [N.eqb Pos.eqb]. rewrite (count_exact s n r H). reflexivity.
  - exists 123%N, (s ++ [44%N; 125%N]). split; [reflexivity|]. intros r. rewrite <- app_assoc. cbn [app].
    unfold lex_one. cbn [N.eqb Pos.eqb]. rewrite (count_from s n r H). reflexivity.
  - exists 123%N, (s ++ 44%N :: t ++ [125%N]). split; [reflexivity|]. intros r. rewrite <- app_assoc. cbn [app]. rewrite <- app_assoc. cbn [app].
    unfold lex_one. cbn [N.eqb Pos.eqb]. rewrite (count_between s n t m r H H' L). reflexivity.
Qed.
Lemma plain_char c r : ~ special c -> lex_one c r = Some (KSet (chr c), r).
Proof using.
  unfold special. change (of_string "\.[()|^$*+?{") with [92; 46; 91; 40; 41; 124; 94; 36; 42; 43; 63; 123]%N. cbn [In]. intros H.
  unfold lex_one. repeat (rewrite (proj2 (N.eqb_neq c _)) by (intros ->; apply H; tauto)). reflexivity.
Qed.
Lemma any_set c : in_set ci (mkSet true [(10, 10)%N]) c = true <-> c <> 10%N.
Proof using.
  rewrite (set_means ci true _ (fun x => x = 10%N)) by (intros x; apply chr_set). unfold one_of_set. split; [tauto|].
  intros H [A | (_ & d & D & ->)]; [contradiction|]. unfold other_case, upper, lower, span_of in D. lia.
Qed.
Lemma spells_lex t k oe : spells ci t k oe -> forall r, (oe = true -> no_question r) ->
  exists c t' rt, t = c :: t' /\ lex_one c (t' ++ r) = Some (rt, r) /\ as_token k rt.
Proof using.
  intros H r Q. destruct H as [c A|c A|l c A| |l neg P A|s P A B|s P A| | | | | | | | |n A|n A| | |s lo hi A|s lo hi A].
  - eexists _, _, _. split; [reflexivity|]. split; [apply plain_char, A | apply at_chr].
  - eexists _, _, _. split; [reflexivity|]. split; [|apply (at_chr c)]. cbn [app]. unfold lex_one. cbn [N.eqb Pos.eqb]. rewrite (punctuation_char c A). reflexivity.
  - eexists _, _, _. split; [reflexivity|]. split; [|apply (at_chr c)]. cbn [app]. unfold lex_one. cbn [N.eqb Pos.eqb]. rewrite (control_char l c A). reflexivity.
  - eexists _, _, _. split; [reflexivity|]. split; [reflexivity|]. constructor. intros c. symmetry. apply any_set.
  - destruct neg.
    + destruct (class_not_of l P A) as (E1 & E2 & s & E3 & E4). eexists _, _, _. split; [reflexivity|]. split; [|apply (at_set true s), E4].
      cbn [app]. unfold lex_one. cbn [N.eqb Pos.eqb]. rewrite E1, E2, E3. reflexivity.
    + destruct (class_of l P A) as (E1 & s & E3 & E4). eexists _, _, _. split; [reflexivity|]. split; [|apply (at_set false s), E4].
      cbn [app]. unfold lex_one. cbn [N.eqb Pos.eqb]. rewrite E1, E3. reflexivity.
  - destruct (bracket_lex _ _ _ A (S (length (s ++ r))) r [] ltac:(rewrite app_length; lia)) as (l & L1 & L2).
    eexists _, _, _. split; [reflexivity|]. split; [|apply (at_set false l), L2].
    unfold lex_one. cbn [N.eqb Pos.eqb]. unfold lex_class.
    destruct s as [|c s]; [apply bracket_nil in A; contradiction|]. cbn [app] in *.
    destruct (N.eqb_spec c 94) as [-> | D]; [exfalso; exact (B s eq_refl)|]. rewrite L1. reflexivity.
  - destruct (bracket_lex _ _ _ A (S (length (s ++ r))) r [] ltac:(rewrite app_length; lia)) as (l & L1 & L2).
    eexists _, _, _. split; [reflexivity|]. split; [|apply (at_set true l), L2].
    unfold lex_one. cbn [N.eqb Pos.eqb]. unfold lex_class. cbn [app N.eqb Pos.eqb]. rewrite L1. reflexivity.
  - eexists _, _, _. split; [reflexivity|]. split; [reflexivity|]. constructor. intros b i. symmetry. apply bol_ok.
  - eexists _, _, _. split; [reflexivity|]. split; [reflexivity|]. constructor. intros b i. symmetry. apply eol_ok.
  - eexists _, _, _. split; [reflexivity|]. split; [reflexivity|]. constructor. intros b i. symmetry. apply Nat.eqb_eq.
  - eexists _, _, _. split; [reflexivity|]. split; [reflexivity|]. constructor. intros b i. symmetry. apply Nat.eqb_eq.
  - eexists _, _, _. split; [reflexivity|]. split; [reflexivity|]. constructor. intros b i. symmetry. apply boundary_ok.
  - eexists _, _, _. split; [reflexivity|]. split; [reflexivity|]. constructor. intros b i. rewrite <- boundary_ok. cbn [look_ok].
    destruct (xorb _ _); cbn; split; congruence.
  - exists 40%N, [], (KOpen (Some None)). split; [reflexivity|]. split; [|constructor]. cbn [app]. unfold lex_one. cbn [N.eqb Pos.eqb]. specialize (Q eq_refl).
    unfold lex_open. destruct r as [|c r]; [reflexivity|]. destruct (N.eqb_spec c 63) as [-> | D]; [exfalso; exact (Q r eq_refl) | reflexivity].
  - eexists _, _, _. split; [reflexivity|]. split; [reflexivity | constructor].
  - exists 40%N, (63%N :: 80%N :: 60%N :: n ++ [62%N]), (KOpen (Some (Some n))). split; [reflexivity|]. split; [|constructor].
    cbn [app]. rewrite <- app_assoc. cbn [app]. unfold lex_one. cbn [N.eqb Pos.eqb lex_open]. rewrite (name_reads n r A). reflexivity.
  - exists 40%N, (63%N :: 60%N :: n ++ [62%N]), (KOpen (Some (Some n))). split; [reflexivity|]. split; [|constructor].
    cbn [app]. rewrite <- app_assoc. cbn [app]. unfold lex_one. cbn [N.eqb Pos.eqb lex_open]. rewrite (name_reads n r A). reflexivity.
  - eexists _, _, _. split; [reflexivity|]. split; [reflexivity | constructor].
  - eexists _, _, _. split; [reflexivity|]. split; [reflexivity | constructor].
  - destruct (times_lex s lo hi A) as (c & t & -> & E). exists c, t, (KPost lo hi true). split; [reflexivity|]. split; [|constructor].
    rewrite E, (lazy_none r (Q eq_refl)). reflexivity.
  - destruct (times_lex s lo hi A) as (c & t & -> & E). exists c, (t ++ of_string "?"), (KPost lo hi false). split; [reflexivity|]. split; [|constructor].
    rewrite <- app_assoc, E. reflexivity.
Qed.
Lemma words_lex s ks : words ci s ks -> exists rts, lex_all s = Some rts /\ Forall2 as_token ks rts.
Proof using.
  unfold lex_all. induction 1 as [|t k oe r ks A B C (rts & IH1 & IH2)].
  - exists []. split; [reflexivity | constructor].
  - destruct (spells_lex t k oe A r B) as (c & t' & rt & -> & L & T). exists (rt :: rts). split; [|constructor; assumption].
    cbn [app length lex]. rewrite L. rewrite (lex_fuel (length r) _ r rts IH1) by (rewrite app_length; lia). reflexivity.
Qed.

(** * The grammar *)
Inductive shaped : rexp -> re -> Prop :=
| sh_empty : shaped XEmpty REps
| sh_one P s : (forall c, P c <-> in_set ci s c = true) -> shaped (XOne P) (RSet s)
| sh_here Q l : (forall b i, Q b i <-> look_ok b l i = true) -> shaped (XHere Q) (RLook l)
| sh_cat x y r s : shaped x r -> shaped y s -> shaped (XCat x y) (RCat r s)
| sh_alt x y r s : shaped x r -> shaped y s -> shaped (XAlt x y) (RAlt r s)
| sh_rep lo hi g x r : shaped x r -> shaped (XRep lo hi g x) (RRep lo hi g r)
| sh_group k n x r : shaped x r -> shaped (XGroup k n x) (RGroup k n r).

Definition alts_over (l : list re) (r : re) : re := fold_left (fun r a => RAlt a r) l r.
Definition outcome (v : level) (n : nat) (rts : list rtok) (x : rexp) (n' : nat) : Prop :=
  forall f fs,
  match v with
  | Item => exists r, steps rts (n, f :: fs) = Some (n', push r f :: fs) /\ shaped x r
  | Sequence => exists rs, steps rts (n, f :: fs) = Some (n', mkFrame (f_group f) (f_alts f) (rev rs ++ f_cur f) :: fs) /\ shaped x (cat rs)
  | Choice => f_cur f = [] -> exists f' r, steps rts (n, f :: fs) = Some (n', f' :: fs) /\ f_group f' = f_group f /\ shaped x r /\ alt f' = alts_over (f_alts f) r
  end.
Lemma forms_steps v n ks x n' : forms v n ks x n' -> forall rts, Forall2 as_token ks rts -> outcome v n rts x n'.
Proof using.
  induction 1 as [P n | Q n | name n ts x n' _ IH | n ts x n' _ IH | lo hi g n ts x n' _ IH | n | n ts x n1 us y n2 _ IH1 _ IH2 | n ts x n' _ IH | n ts x n1 us y n2 _ IH1 _ IH2]; intros rts F f fs; cbn [outcome].
  - inversion F as [|? ? ? ? T F']; subst. inversion F'; subst. inversion T; subst. eexists. split; [reflexivity | constructor; assumption].
  - inversion F as [|? ? ? ? T F']; subst. inversion F'; subst. inversion T; subst. eexists. split; [reflexivity | constructor; assumption].
  - inversion F as [|? ? ? ? T F']; subst. inversion T; subst. apply Forall2_app_inv_l in F' as (r1 & r2 & F1 & F2 & ->).
    inversion F2 as [|? ? ? ? T2 F2']; subst. inversion F2'; subst. inversion T2; subst.
    destruct (IH r1 F1 (mkFrame (Some (S n, name)) [] []) (f :: fs) eq_refl) as (f' & r & E1 & E2 & E3 & E4).
    exists (RGroup (S n) name r). split; [|constructor; exact E3].
    cbn [steps step]. rewrite steps_app, E1. cbn [steps step]. unfold close_frame. rewrite E2, E4. cbn [f_group f_alts alts_over fold_left]. reflexivity.
  - inversion F as [|? ? ? ? T F']; subst. inversion T; subst. apply Forall2_app_inv_l in F' as (r1 & r2 & F1 & F2 & ->).
    inversion F2 as [|? ? ? ? T2 F2']; subst. inversion F2'; subst. inversion T2; subst.
    destruct (IH r1 F1 (mkFrame None [] []) (f :: fs) eq_refl) as (f' & r & E1 & E2 & E3 & E4).
    exists r. split; [|exact E3].
    cbn [steps step]. rewrite steps_app, E1. cbn [steps step]. unfold close_frame. rewrite E2, E4. cbn [f_group f_alts alts_over fold_left]. reflexivity.
  - apply Forall2_app_inv_l in F as (r1 & r2 & F1 & F2 & ->).
    inversion F2 as [|? ? ? ? T2 F2']; subst. inversion F2'; subst. inversion T2; subst.
    destruct (IH r1 F1 f fs) as (r & E1 & E2). exists (RRep lo hi g r). split; [|constructor; exact E2].
    rewrite steps_app, E1. reflexivity.
  - inversion F; subst. exists []. split; [destruct f; reflexivity | constructor].
  - apply Forall2_app_inv_l in F as (r1 & r2 & F1 & F2 & ->).
    destruct (IH1 r1 F1 f fs) as (r & E1 & E2). destruct (IH2 r2 F2 (push r f) fs) as (rs & E3 & E4).
    exists (r :: rs). split; [|constructor; assumption]. rewrite steps_app, E1, E3. cbn [push f_group f_alts f_cur rev]. rewrite <- app_assoc. reflexivity.
  - intros C. destruct (IH rts F f fs) as (rs & E1 & E2). eexists _, (cat rs). split; [exact E1|]. split; [reflexivity|]. split; [exact E2|].
    unfold alt, alts_over. cbn [f_alts f_cur]. rewrite C, app_nil_r, rev_involutive. reflexivity.
  - intros C. apply Forall2_app_inv_l in F as (r1 & r2 & F1 & F2 & ->). inversion F2 as [|? ? ? ? T2 F2']; subst. inversion T2; subst.
    destruct (IH1 r1 F1 f fs) as (rs & E1 & E2).
    destruct (IH2 _ F2' (mkFrame (f_group f) (cat rs :: f_alts f) []) fs eq_refl) as (f' & r & E3 & E4 & E5 & E6).
    exists f', (RAlt (cat rs) r). split; [|split; [exact E4 | split; [constructor; assumption | exact E6]]].
    rewrite steps_app, E1. cbn [steps step f_group f_alts f_cur]. rewrite C, app_nil_r, rev_involutive. exact E3.
Qed.
Lemma open_names_app a b : open_names (a ++ b) = open_names a ++ open_names b.
Proof using. unfold open_names. apply flat_map_app. Qed.
Lemma forms_names v n ks x n' : forms v n ks x n' -> forall rts, Forall2 as_token ks rts -> open_names rts = groups_in x.
Proof using.
  induction 1 as [P n | Q n | name n ts x n' _ IH | n ts x n' _ IH | lo hi g n ts x n' _ IH | n | n ts x n1 us y n2 _ IH1 _ IH2 | n ts x n' _ IH | n ts x n1 us y n2 _ IH1 _ IH2]; intros rts F.
  - inversion F as [|? ? ? ? T F']; subst. inversion F'; subst. inversion T; subst. reflexivity.
  - inversion F as [|? ? ? ? T F']; subst. inversion F'; subst. inversion T; subst. reflexivity.
  - inversion F as [|? ? ? ? T F']; subst. inversion T; subst. apply Forall2_app_inv_l in F' as (r1 & r2 & F1 & F2 & ->).
    inversion F2 as [|? ? ? ? T2 F2']; subst. inversion F2'; subst. inversion T2; subst.
    change (name :: open_names (r1 ++ [KClose]) = name :: groups_in x). rewrite open_names_app, (IH r1 F1). f_equal. apply app_nil_r.
  - inversion F as [|? ? ? ? T F']; subst. inversion T; subst. apply Forall2_app_inv_l in F' as (r1 & r2 & F1 & F2 & ->).
    inversion F2 as [|? ? ? ? T2 F2']; subst. inversion F2'; subst. inversion T2; subst.
    change (open_names (r1 ++ [KClose]) = groups_in x). rewrite open_names_app, (IH r1 F1). apply app_nil_r.
  - apply Forall2_app_inv_l in F as (r1 & r2 & F1 & F2 & ->).
    inversion F2 as [|? ? ? ? T2 F2']; subst. inversion F2'; subst. inversion T2; subst. rewrite open_names_app, (IH r1 F1). apply app_nil_r.
  - inversion F; subst. reflexivity.
  - apply Forall2_app_inv_l in F as (r1 & r2 & F1 & F2 & ->). rewrite open_names_app, (IH1 r1 F1), (IH2 r2 F2). reflexivity.
  - exact (IH rts F).
  - apply Forall2_app_inv_l in F as (r1 & r2 & F1 & F2 & ->). inversion F2 as [|? ? ? ? T2 F2']; subst. inversion T2; subst.
    rewrite open_names_app, (IH1 r1 F1). cbn [groups_in]. f_equal. exact (IH2 _ F2').
Qed.
Lemma nodup_distinct l : NoDup l -> distinct l = true.
Proof using.
  induction 1 as [|x l H _ IH]; [reflexivity|]. cbn [distinct]. rewrite IH, Bool.andb_true_r. apply Bool.negb_true_iff.
  destruct (existsb (str_eqb x) l) eqn:E; [|reflexivity]. exfalso. apply H. apply existsb_exists in E as (y & Y1 & Y2). apply str_eqb_eq in Y2. subst. exact Y1.
Qed.
Lemma written_built s x : written_as ci s x -> NoDup (names_in x) ->
  exists c, build ci s = Some c /\ x_names c = None :: groups_in x /\ x_ci c = ci /\ shaped x (x_re c).
Proof using.
  intros (ks & n & W & F) D. destruct (words_lex s ks W) as (rts & L & T). unfold build. rewrite L.
  destruct (forms_steps _ _ _ _ _ F rts T (mkFrame None [] []) [] eq_refl) as (f' & r & E1 & _ & E3 & E4).
  pose proof (forms_names _ _ _ _ _ F rts T) as N.
  assert (P : parse_tokens rts = Some r).
  { unfold parse_tokens. rewrite E1, N. change (some_names (groups_in x)) with (names_in x). rewrite (nodup_distinct _ D), E4. reflexivity. }
  rewrite P. cbn [option_map]. eexists. split; [reflexivity|]. cbn [x_names x_ci x_re]. rewrite N. split; [reflexivity|]. split; [reflexivity | exact E3].
Qed.

(** * What it matches *)
Lemma shaped_lang b e x r : shaped x r -> forall i j, lang ci b e r i j <-> means b e x i j.
Proof using.
  assert (ROW : forall x r, (forall i j, lang ci b e r i j <-> means b e x i j) -> forall n i j, lang_n ci b e r n i j <-> in_a_row b e x n i j).
  { intros x0 r0 H n. induction n as [|n IH]; intros i j.
    - split; intros L; inversion L; subst; constructor.
    - split; intros L; inversion L as [|? ? ? k ? A B]; subst; apply IH in B; apply H in A; econstructor; eassumption. }
  induction 1 as [|P s H|Q l H|x y r s _ IH1 _ IH2|x y r s _ IH1 _ IH2|lo hi g x r _ IH|k n x r _ IH]; intros i j.
  - split; intros L; inversion L; subst; constructor.
  - split; intros L; inversion L as [|? ? c A B C| | | | | |]; subst; econstructor; try eassumption; apply H; assumption.
  - split; intros L; inversion L; subst; constructor; apply H; assumption.
  - split; intros L; inversion L as [| | |? ? ? k ? A B| | | |]; subst; apply IH1 in A; apply IH2 in B; econstructor; eassumption.
  - split; intros L; inversion L as [| | | |? ? ? ? A|? ? ? ? A| |]; subst; (apply IH1 in A + apply IH2 in A); first [constructor; exact A | apply lg_right; exact A | apply mn_right; exact A].
  - split; intros L; inversion L as [| | | | | |? ? ? ? m ? ? A B C|]; subst; apply (ROW x r IH) in C; econstructor; eassumption.
  - split; intros L; inversion L as [| | | | | | |? ? ? ? ? A]; subst; apply IH in A; constructor; exact A.
Qed.
Lemma shaped_takes b e x r : shaped x r -> forall i j t, takes ci b e r i j t <-> chooses b e x i j t.
Proof using.
  assert (ROW : forall x r, (forall i j t, takes ci b e r i j t <-> chooses b e x i j t) -> forall n i j t, takes_n ci b e n r i j t <-> chooses_n b e n x i j t).
  { intros x0 r0 H n. induction n as [|n IH]; intros i j t.
    - split; intros L; inversion L; subst; constructor.
    - split; intros L; inversion L as [|? ? ? k ? t1 t2 A B]; subst; apply IH in B; apply H in A; econstructor; eassumption. }
  assert (MORE1 : forall x r, (forall i j t, takes ci b e r i j t <-> chooses b e x i j t) -> forall hi g r' i j t, takes_more ci b e hi g r' i j t -> r' = r -> chooses_more b e hi g x i j t).
  { intros x0 r0 H. intros hi g r' i j t L. induction L as [g0 y i|hi g0 y i A|n g0 y i k j t u A B IH|g0 y i k j t u A A2 B IH|g0 y i t A]; intros ->.
    - constructor. - constructor; assumption. - eapply cm_bounded; [apply H, A | exact (IH eq_refl)].
    - eapply cm_more; [apply H, A | exact A2 | exact (IH eq_refl)]. - apply cm_empty, H, A. }
  assert (MORE2 : forall x r, (forall i j t, takes ci b e r i j t <-> chooses b e x i j t) -> forall hi g x' i j t, chooses_more b e hi g x' i j t -> x' = x -> takes_more ci b e hi g r i j t).
  { intros x0 r0 H. intros hi g r' i j t L. induction L as [g0 y i|hi g0 y i A|n g0 y i k j t u A B IH|g0 y i k j t u A A2 B IH|g0 y i t A]; intros ->.
    - constructor. - constructor; assumption. - eapply tm_bounded; [apply H, A | exact (IH eq_refl)].
    - eapply tm_more; [apply H, A | exact A2 | exact (IH eq_refl)]. - apply tm_empty, H, A. }
  induction 1 as [|P s H|Q l H|x y r s _ IH1 _ IH2|x y r s _ IH1 _ IH2|lo hi g x r _ IH|k n x r _ IH]; intros i j t.
  - split; intros L; inversion L; subst; constructor.
  - split; intros L; inversion L as [|? ? c A B C| | | | | |]; subst; econstructor; try eassumption; apply H; assumption.
  - split; intros L; inversion L; subst; constructor; apply H; assumption.
  - split; intros L; inversion L as [| | |? ? ? k ? ? ? A B| | | |]; subst; apply IH1 in A; apply IH2 in B; econstructor; eassumption.
  - split; intros L; inversion L as [| | | |? ? ? ? ? A|? ? ? ? ? A| |]; subst.
    + apply IH1 in A. constructor; exact A. + apply IH2 in A. apply cx_right; exact A. + apply IH1 in A. constructor; exact A. + apply IH2 in A. apply tk_right; exact A.
  - split; intros L; inversion L as [| | | | | |? ? ? ? ? m ? ? ? A B|]; subst; apply (ROW x r IH) in A; (apply (MORE1 x r IH) in B + apply (MORE2 x r IH) in B); try reflexivity; econstructor; eassumption.
  - split; intros L; inversion L as [| | | | | | |? ? ? ? ? ? A]; subst; apply IH in A; constructor; exact A.
Qed.
End Tokens.
