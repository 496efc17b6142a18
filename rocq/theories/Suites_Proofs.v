From Coq Require Import String.
From Verif Require Import Base Cursor_Model Num_Model Run_Model Report_Model Report_Spec Report_Props Input_Spec Suites_Model Suites_Spec.
Notation length := List.length.
Open Scope string_scope. Open Scope list_scope. Open Scope nat_scope.

Lemma println_line s : println s = line s. Proof. reflexivity. Qed.
Lemma byte_len_ascii k : ascii k -> byte_len k = length k.
Proof.
  unfold byte_len. induction k as [|c k IH]; intros A; [reflexivity|]. cbn [map list_sum fold_right length].
  change (fold_right Nat.add 0 (map char_len k)) with (list_sum (map char_len k)).
  rewrite IH by (intros x I; apply A; now right). unfold char_len.
  pose proof (A c (or_introl eq_refl)) as L. apply N.ltb_lt in L. rewrite L. reflexivity.
Qed.
(** The text *)
Lemma byte_len_bytes k : byte_len k = length (concat (map encode k)).
Proof.
  unfold byte_len. induction k as [|c k IH]; [reflexivity|]. cbn [map concat]. rewrite app_length, <- IH.
  change (list_sum (char_len c :: map char_len k)) with (char_len c + list_sum (map char_len k)). f_equal. unfold char_len, encode.
  destruct (c <? 128)%N, (c <? 2048)%N, (c <? 65536)%N; reflexivity.
Qed.
Section Widths.
Variable len : str -> nat.
Lemma table_text w l : (forall k v, In (k, v) l -> byte_len k = len k /\ len k <= w) ->
  table len w l (flat_map (fun e => println (of_string "        - " ++ fst e ++ spaces (w - byte_len (fst e)) ++ of_string ": " ++ snd e)) l).
Proof.
  induction l as [|[k v] l IH]; intros A; [constructor|]. cbn [flat_map fst snd]. rewrite println_line.
  destruct (A k v (or_introl eq_refl)) as [E L]. rewrite E. unfold spaces. constructor; [lia|]. apply IH. intros k' v' I. apply (A k' v'). now right.
Qed.
Lemma entries_text l : (forall k v, In (k, v) l -> byte_len k = len k) -> exists w, widest len l w /\ table len w l (print_entries l).
Proof.
  intros A. unfold print_entries. set (w := max_of (map (fun e => byte_len (fst e)) l)). exists w.
  assert (B : forall k v, In (k, v) l -> byte_len k = len k /\ len k <= w).
  { intros k v I. assert (E := A k v I). split; [exact E|]. rewrite <- E. apply max_ge. change (byte_len k) with ((fun e : str * str => byte_len (fst e)) (k, v)). now apply in_map. }
  split; [|now apply table_text]. split; [intros k v I; apply (B k v I)|].
  destruct l as [|e l]; [now left|right].
  assert (M : In w (map (fun e => byte_len (fst e)) (e :: l))) by (apply max_in; discriminate).
  apply in_map_iff in M as ([k v] & E & I). exists k, v. split; [exact I|]. cbn [fst] in E. rewrite <- E. symmetry. apply (B k v I).
Qed.
Lemma suite_text s : (forall k v, In (k, v) (su_substitutions s) -> byte_len k = len k) -> (forall k v, In (k, v) (su_env s) -> byte_len k = len k) -> entry len s (print_suite s).
Proof.
  intros A B. destruct (entries_text _ A) as (w & W & T). destruct (entries_text _ B) as (v & V & U).
  unfold print_suite. rewrite flat_map_concat_map. exact (en_text len s _ w _ v _ (decimal_text _) W T V U).
Qed.
Lemma listing_by_text l : Forall (fun s => (forall k v, In (k, v) (su_substitutions s) -> byte_len k = len k) /\ (forall k v, In (k, v) (su_env s) -> byte_len k = len k)) l ->
  listing_by len l (print_suites l).
Proof.
  intros A. exists (flat_map print_suite l). split; [|reflexivity]. induction A as [|s l [H1 H2] A IH]; [constructor|].
  cbn [flat_map]. constructor; [now apply suite_text|exact IH].
Qed.
End Widths.
Lemma listing_text l : Forall ascii_keys l -> listing l (print_suites l).
Proof.
  intros A. apply listing_by_text. eapply Forall_impl; [|exact A]. intros s [H1 H2]. split; intros k v I; apply byte_len_ascii; eauto.
Qed.
Lemma listing_bytes_text l : listing_bytes l (print_suites l).
Proof. apply listing_by_text. apply Forall_forall. intros s _. split; intros k v _; apply byte_len_bytes. Qed.

(** Reading back *)
Lemma split_first (c : N) a : forall b x y, ~ In c a -> ~ In c b -> a ++ c :: x = b ++ c :: y -> a = b /\ x = y.
Proof.
  induction a as [|d a IH]; intros [|e b] x y A B E; cbn in E; [injection E as ->; now split|injection E as E1 E2..].
  - subst e. destruct B. now left.
  - subst d. destruct A. now left.
  - subst e. destruct (IH b x y) as [-> ->]; auto; intros I; [apply A|apply B]; now right.
Qed.
Lemma split_last (c : N) a b x y : ~ In c x -> ~ In c y -> a ++ c :: x = b ++ c :: y -> a = b /\ x = y.
Proof.
  intros A B E. apply (f_equal (@rev N)) in E. rewrite !rev_app_distr in E. cbn [rev] in E. rewrite <- !app_assoc in E. cbn [app] in E.
  apply split_first in E as [E1 E2]; [|rewrite <- in_rev; auto|rewrite <- in_rev; auto].
  apply (f_equal (@rev N)) in E1, E2. rewrite !rev_involutive in E1, E2. now subst.
Qed.
Lemma spaces_same (k k' : str) i j : (forall p, k <> p ++ [32%N]) -> (forall p, k' <> p ++ [32%N]) -> k ++ repeat 32%N i = k' ++ repeat 32%N j -> k = k'.
Proof.
  assert (R : forall n, repeat 32%N (S n) = repeat 32%N n ++ [32%N]).
  { intros n. replace (S n) with (n + 1) by lia. apply repeat_app. }
  revert j. induction i as [|i IH]; intros [|j] A B E.
  - cbn in E. now rewrite !app_nil_r in E.
  - rewrite R, app_assoc in E. cbn in E. rewrite app_nil_r in E. destruct (A _ E).
  - rewrite R, app_assoc in E. cbn in E. rewrite app_nil_r in E. symmetry in E. destruct (B _ E).
  - rewrite !R, !app_assoc in E. apply app_inv_tail in E. now apply (IH j).
Qed.
Lemma decimal_solid_space n d : decimal n d -> ~ In 32%N d.
Proof.
  induction 1 as [d L|m t d P L D IH]; cbn; [intros [E|[]]; lia|]. rewrite in_app_iff. intros [I|[E|[]]]; [now apply IH|lia].
Qed.
Definition digits_value (s : str) : nat := fold_left (fun a c => 10 * a + (N.to_nat c - 48)) s 0.
Lemma decimal_digits n d : decimal n d -> digits_value d = n.
Proof.
  assert (Z : forall d, N.to_nat (N.of_nat (48 + d)) - 48 = d) by (intros d0; rewrite Nat2N.id; lia).
  unfold digits_value. induction 1 as [d L|n t d P L D IH].
  - cbn [fold_left]. rewrite Z. lia.
  - rewrite fold_left_app. cbn [fold_left]. rewrite Z, IH. reflexivity.
Qed.
Lemma decimal_value n d m : decimal n d -> decimal m d -> n = m.
Proof. intros A B. now rewrite <- (decimal_digits n d A), <- (decimal_digits m d B). Qed.

(** Lines that begin with [p] *)
Definition starts (p s : str) : Prop := exists r, s = p ++ r.
Lemma lines_same p (l : list str) : forall l' x y, Forall (fun s => one_line (p ++ s)) l -> Forall (fun s => one_line (p ++ s)) l' -> ~ starts p x -> ~ starts p y ->
  concat (map (fun s => line (p ++ s)) l) ++ x = concat (map (fun s => line (p ++ s)) l') ++ y -> l = l' /\ x = y.
Proof.
  induction l as [|s l IH]; intros [|s' l'] x y A B X Y E; cbn [map concat app] in E.
  - now split.
  - subst x. destruct X. unfold line. rewrite <- !app_assoc. eexists. reflexivity.
  - subst y. destruct Y. unfold line. rewrite <- !app_assoc. eexists. reflexivity.
  - inversion A; inversion B; subst. rewrite <- !app_assoc in E. apply line_same in E as [E1 E2]; auto.
    apply app_inv_head in E1. destruct (IH l' x y) as [-> ->]; auto. now subst.
Qed.
Definition row (w : nat) (e : str * str) : str := fst e ++ spaces (w - byte_len (fst e)) ++ of_string ": " ++ snd e.
Lemma print_entries_rows l : print_entries l = concat (map (fun s => line (of_string "        - " ++ s)) (map (row (max_of (map (fun e => byte_len (fst e)) l))) l)).
Proof.
  unfold print_entries. rewrite flat_map_concat_map, map_map. f_equal.
Qed.
Lemma row_same w w' e e' : delimited (fst e) -> delimited (fst e') -> row w e = row w' e' -> e = e'.
Proof.
  destruct e as [k v], e' as [k' v']. cbn [fst]. intros (_ & A & B) (_ & A' & B') E. unfold row in E. cbn [fst snd] in E.
  assert (C : forall (k : str) i, ~ In 58%N k -> ~ In 58%N (k ++ spaces i)).
  { intros q i Q. rewrite in_app_iff. intros [I|I]; [auto|]. apply repeat_spec in I. discriminate. }
  rewrite !app_assoc in E. rewrite <- !(app_assoc (_ ++ spaces _)) in E. change (of_string ": " ++ v) with (58%N :: 32%N :: v) in E. change (of_string ": " ++ v') with (58%N :: 32%N :: v') in E.
  apply split_first in E as [E1 E2]; [|now apply C|now apply C]. injection E2 as ->. f_equal. exact (spaces_same _ _ _ _ B B' E1).
Qed.
Lemma rows_same w w' l : forall l', Forall (fun e => delimited (fst e) /\ one_line (snd e)) l -> Forall (fun e => delimited (fst e) /\ one_line (snd e)) l' ->
  map (row w) l = map (row w') l' -> l = l'.
Proof.
  induction l as [|e l IH]; intros [|e' l'] A B E; try discriminate; [reflexivity|]. cbn [map] in E. inversion A as [|? ? [A1 ?] ?]; inversion B as [|? ? [B1 ?] ?]; subst.
  assert (E1 : row w e = row w' e') by congruence. assert (E2 : map (row w) l = map (row w') l') by congruence.
  apply row_same in E1; auto. subst. f_equal. now apply IH.
Qed.
Lemma one_line_app a b : one_line a -> one_line b -> one_line (a ++ b).
Proof. unfold one_line. rewrite in_app_iff. tauto. Qed.
Lemma one_line_const a : existsb (N.eqb 10) a = false -> one_line a.
Proof. intros E I. enough (existsb (N.eqb 10) a = true) by congruence. apply existsb_exists. exists 10%N. now split. Qed.
Ltac const := apply one_line_const; vm_compute; reflexivity.
Lemma rows_one_line w l : Forall (fun e => delimited (fst e) /\ one_line (snd e)) l -> Forall (fun s => one_line (of_string "        - " ++ s)) (map (row w) l).
Proof.
  intros A. apply Forall_map. eapply Forall_impl; [|exact A]. intros [k v] [(B & _ & _) C]. cbn [fst snd] in *. unfold row. cbn [fst snd].
  repeat apply one_line_app; auto; try const. intros I. apply repeat_spec in I. discriminate.
Qed.
Lemma tables_same l l' x y : Forall (fun e => delimited (fst e) /\ one_line (snd e)) l -> Forall (fun e => delimited (fst e) /\ one_line (snd e)) l' ->
  ~ starts (of_string "        - ") x -> ~ starts (of_string "        - ") y -> print_entries l ++ x = print_entries l' ++ y -> l = l' /\ x = y.
Proof.
  intros A B X Y E. rewrite !print_entries_rows in E. apply lines_same in E as [E1 E2]; auto using rows_one_line. split; [|exact E2]. eapply rows_same; eauto.
Qed.
Lemma starts_cons p s : starts p s -> firstn (length p) s = p.
Proof. intros [r ->]. rewrite firstn_app, Nat.sub_diag, firstn_all. apply app_nil_r. Qed.
Ltac unstart := let S := fresh in intros S; apply starts_cons in S; vm_compute in S; discriminate S.
Lemma head_same s s' x y : one_line (su_name s) -> one_line (su_name s') ->
  println (of_string "  * " ++ su_name s ++ of_string " - " ++ number_text (su_tests s) ++ of_string " tests") ++ x
  = println (of_string "  * " ++ su_name s' ++ of_string " - " ++ number_text (su_tests s') ++ of_string " tests") ++ y ->
  su_name s = su_name s' /\ su_tests s = su_tests s' /\ x = y.
Proof.
  intros A B E. rewrite !println_line in E. pose proof (decimal_text (su_tests s)) as D. pose proof (decimal_text (su_tests s')) as D'.
  apply line_same in E as [E1 E2].
  - apply app_inv_head in E1. rewrite !app_assoc in E1. apply app_inv_tail in E1. change (of_string " - ") with ([32; 45]%N ++ [32%N]) in E1.
    rewrite !(app_assoc _ [32; 45]%N) in E1. rewrite <- !(app_assoc _ [32%N]) in E1. cbn [app] in E1.
    apply split_last in E1 as [E1 E3]; [|eapply decimal_solid_space; eassumption|eapply decimal_solid_space; eassumption].
    apply app_inv_tail in E1. rewrite E3 in D. repeat split; auto. exact (decimal_value _ _ _ D D').
  - repeat apply one_line_app; auto; try const. exact (decimal_solid _ _ D).
  - repeat apply one_line_app; auto; try const. exact (decimal_solid _ _ D').
Qed.
Lemma prefixed_same p a b x y : one_line p -> one_line a -> one_line b -> println (p ++ a) ++ x = println (p ++ b) ++ y -> a = b /\ x = y.
Proof. intros P A B E. rewrite !println_line in E. apply line_same in E as [E1 E2]; [|now apply one_line_app|now apply one_line_app]. apply app_inv_head in E1. auto. Qed.
Lemma suite_same s s' x y : readable s -> readable s' -> ~ starts (of_string "        - ") x -> ~ starts (of_string "        - ") y ->
  print_suite s ++ x = print_suite s' ++ y -> s = s' /\ x = y.
Proof.
  intros (A1 & A2 & A3 & A4 & A5 & A6 & A7) (B1 & B2 & B3 & B4 & B5 & B6 & B7) X Y E. unfold print_suite in E. rewrite <- !app_assoc in E.
  apply head_same in E as (N1 & N2 & E); auto.
  apply prefixed_same in E as [N3 E]; auto; [|const]. apply prefixed_same in E as [N4 E]; auto; [|const]. apply prefixed_same in E as [N5 E]; auto; [|const].
  apply app_inv_head in E. rewrite !flat_map_concat_map in E.
  apply lines_same in E as [N6 E]; try unstart;
    [|eapply Forall_impl; [|exact A5]; intros f F; apply one_line_app; [const|exact F]|eapply Forall_impl; [|exact B5]; intros f F; apply one_line_app; [const|exact F]].
  apply app_inv_head in E. apply tables_same in E as [N7 E]; auto; try unstart.
  apply app_inv_head in E. apply tables_same in E as [N8 E]; auto.
  split; [|exact E]. destruct s, s'. cbn in *. now subst.
Qed.
Lemma suites_start (l : list suite) : ~ starts (of_string "        - ") (flat_map print_suite l).
Proof. destruct l as [|s l]; [intros [r E]; discriminate|]. unstart. Qed.
Lemma suites_same l : forall l', Forall readable l -> Forall readable l' -> flat_map print_suite l = flat_map print_suite l' -> l = l'.
Proof.
  induction l as [|s l IH]; intros [|s' l'] A B E; try discriminate; [reflexivity|]. cbn [flat_map] in E. inversion A; inversion B; subst.
  apply suite_same in E as [-> E]; auto using suites_start. f_equal. now apply IH.
Qed.
