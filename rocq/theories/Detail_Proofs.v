From Coq Require Import String.
From Verif Require Import Base Cursor_Model Num_Model Run_Model Report_Model Report_Spec Report_Props Suites_Spec Suites_Proofs Detail_Model Detail_Spec.
Notation length := List.length.
Open Scope string_scope. Open Scope list_scope. Open Scope nat_scope.

Lemma int_text_positive n : 0 < n -> int_text (Z.of_nat n) = number_text n.
Proof. intros P. unfold int_text, number_text. assert (E : (Z.of_nat n <? 0)%Z = false) by (apply Z.ltb_ge; lia). rewrite E, Z.abs_eq by lia. reflexivity. Qed.
Lemma int_text_negative n : 0 < n -> int_text (- Z.of_nat n)%Z = [45%N] ++ number_text n.
Proof. intros P. unfold int_text, number_text. assert (E : (- Z.of_nat n <? 0)%Z = true) by (apply Z.ltb_lt; lia). rewrite E, Z.abs_neq, Z.opp_involutive by lia. reflexivity. Qed.
Lemma exit_code_code r c : code r c <-> exit_code r = c.
Proof. unfold code, exit_code. destruct (rs_exit r) as [x|]; split; [intros [E|[E _]]; congruence|intros ->; now left|intros [E|[_ ->]]; [discriminate|reflexivity]|intros <-; now right]. Qed.
Lemma decimal_inj n d e : decimal n d -> decimal n e -> d = e.
Proof.
  intros A. revert e. induction A as [d L|n t d P L D IH]; intros e E.
  - remember d as m eqn:M in E. destruct E as [f F|k u f P F K]; [now subst|lia].
  - remember (10 * n + d) as m eqn:M. destruct E as [f F|k u f Q F K]; [lia|]. assert (k = n) by lia. assert (f = d) by lia. subst k f. now rewrite (IH u K).
Qed.
Lemma decimal_number n d : decimal n d <-> d = number_text n.
Proof. split; [intros D; exact (decimal_inj _ _ _ D (decimal_text n))|intros ->; apply decimal_text]. Qed.

Lemma exit_line_text r x : exit_line (exit_code r) x <-> x = exit_text r.
Proof.
  unfold exit_text. split.
  - intros X. inversion X as [A|n d P D A|n d P D A|A]; subst; rewrite <- ?A.
    + reflexivity.
    + assert (E : (Z.of_nat n =? 0)%Z = false) by (apply Z.eqb_neq; lia). rewrite E. cbn [negb]. apply decimal_number in D. now rewrite int_text_positive, D.
    + assert (E : (- Z.of_nat n =? 0)%Z = false) by (apply Z.eqb_neq; lia). rewrite E. cbn [negb]. apply decimal_number in D. now rewrite int_text_negative, D.
    + reflexivity.
  - intros ->. destruct (exit_code r) as [c|]; [|exact el_none]. destruct (c =? 0)%Z eqn:E; cbn [negb].
    + apply Z.eqb_eq in E. subst. constructor.
    + apply Z.eqb_neq in E. destruct (Z.lt_total c 0) as [L|[L|L]]; [|congruence|].
      * assert (F : c = (- Z.of_nat (Z.to_nat (- c)))%Z) by lia. rewrite F, int_text_negative by lia. apply (el_negative _ (number_text (Z.to_nat (- c)))); [lia|apply decimal_text].
      * assert (F : c = Z.of_nat (Z.to_nat c)) by lia. rewrite F, int_text_positive by lia. apply (el_positive _ (number_text (Z.to_nat c))); [lia|apply decimal_text].
Qed.
Lemma is_timeout_spec r : is_timeout r = true <-> rs_status r = Timeout.
Proof. unfold is_timeout. destruct (rs_status r); split; congruence. Qed.
Lemma is_timeout_not r : is_timeout r = false <-> rs_status r <> Timeout.
Proof. rewrite <- is_timeout_spec. destruct (is_timeout r); split; congruence. Qed.
Lemma div_range m n : (N.of_nat m * 1000000 <= n < (N.of_nat m + 1) * 1000000)%N <-> m = N.to_nat (n / 1000000).
Proof.
  pose proof (N.div_mod n 1000000 ltac:(discriminate)) as E. pose proof (N.mod_lt n 1000000 ltac:(discriminate)) as L. split.
  - intros H. enough (N.of_nat m = n / 1000000)%N by lia. nia.
  - intros ->. rewrite N2Nat.id. lia.
Qed.
Lemma time_line_text f r t : time_line f (rs_status r) (rs_elapsed r) t <-> time_text f r = Some t.
Proof.
  unfold time_text. split.
  - intros T. inversion T as [s n d D A B C|u n m d U M D A B C|u s n U P A B C|u U A B C]; subst.
    + rewrite (proj2 (is_timeout_spec r)) by congruence. apply decimal_number in D. subst d. reflexivity.
    + rewrite (proj2 (is_timeout_not r) U). apply div_range in M. apply decimal_number in D. subst. reflexivity.
    + rewrite (proj2 (is_timeout_not r) U). cbn [fst]. destruct (s =? 0) eqn:E; [apply Nat.eqb_eq in E; lia|]. reflexivity.
    + rewrite (proj2 (is_timeout_not r) U). reflexivity.
  - destruct (is_timeout r) eqn:I; [apply is_timeout_spec in I; rewrite I|apply is_timeout_not in I].
    + destruct (rs_elapsed r) as [[s n]|]; [|discriminate]. intros E. assert (F : forall a b : str, Some a = Some b -> a = b) by congruence. apply F in E. subst t. cbn [fst].
      apply (tl_timeout f s n (number_text s)). apply decimal_text.
    + assert (F : forall a b : str, Some a = Some b -> a = b) by congruence.
      destruct (rs_elapsed r) as [[s n]|]; intros E; apply F in E; subst t; [|now constructor]. cbn [fst snd]. destruct (s =? 0) eqn:E.
      * apply Nat.eqb_eq in E. subst s. apply (tl_millis f _ n (N.to_nat (n / 1000000)) (number_text (N.to_nat (n / 1000000)))); [exact I|now apply div_range|apply decimal_text].
      * apply Nat.eqb_neq in E. apply (tl_seconds f _ s n); [exact I|lia].
Qed.
Lemma output_out o x : output "stdout" o x <-> x = output_text (of_string "Command Output (stdout) ----") o.
Proof. split; [intros O; inversion O as [|? N]; subst; [reflexivity|destruct o; [congruence|reflexivity]]|intros ->; destruct o as [|c o]; [constructor|apply ou_text; discriminate]]. Qed.
Lemma output_err o x : output "stderr" o x <-> x = output_text (of_string "Command Output (stderr) ----") o.
Proof. split; [intros O; inversion O as [|? N]; subst; [reflexivity|destruct o; [congruence|reflexivity]]|intros ->; destruct o as [|c o]; [constructor|apply ou_text; discriminate]]. Qed.
Lemma shown_details f r t : shown f r t <-> details f r = Some t.
Proof.
  unfold details. split.
  - intros [c x u o e C X T O E]. apply exit_code_code in C. subst c. apply exit_line_text in X. apply time_line_text in T. apply output_out in O. apply output_err in E. subst. now rewrite T.
  - destruct (time_text f r) as [u|] eqn:T; [|discriminate]. intros E. assert (F : forall a b : str, Some a = Some b -> a = b) by congruence. apply F in E. subst t.
    apply (sh_text f r (exit_code r)); [now apply exit_code_code|now apply exit_line_text|now apply time_line_text|now apply output_out|now apply output_err].
Qed.
Lemma details_none f r : details f r = None <-> rs_status r = Timeout /\ rs_elapsed r = None.
Proof.
  unfold details, time_text. rewrite <- is_timeout_spec. destruct (is_timeout r), (rs_elapsed r) as [[s n]|]; split; try discriminate; try (intros []; discriminate); now split.
Qed.

(** ** Reading back *)
Lemma to_first (c : N) l : In c l -> exists u v, l = u ++ c :: v /\ ~ In c u.
Proof.
  induction l as [|d l IH]; intros I; [destruct I|]. destruct (N.eq_dec d c) as [->|D]; [exists [], l; split; [reflexivity|easy]|].
  destruct I as [E|I]; [congruence|]. destruct (IH I) as (u & v & -> & U). exists (d :: u), v. split; [reflexivity|]. intros [E|J]; [congruence|auto].
Qed.
(** Texts up to a line [q] that neither has *)
Lemma until_line_le (q a b l x y : str) : ~ In 10%N q -> ~ has_line q a -> a = b ++ l -> [10%N] ++ a ++ [10%N] ++ q ++ [10%N] ++ x = [10%N] ++ b ++ [10%N] ++ q ++ [10%N] ++ y -> l = [].
Proof.
  intros Q A -> E. destruct l as [|c l]; [reflexivity|exfalso]. apply (f_equal (@tl N)) in E. cbn [tl app] in E. rewrite <- app_assoc in E. apply app_inv_head in E. cbn [app] in E.
  injection E as -> E. destruct (in_dec N.eq_dec 10%N l) as [I|I].
  - apply to_first in I as (u & v & -> & U). rewrite <- app_assoc in E. cbn [app] in E. apply split_first in E as [-> E]; auto.
    apply A. exists (10%N :: b), (v ++ [10%N]). cbn [app]. rewrite <- !app_assoc. cbn [app]. rewrite <- !app_assoc. cbn [app]. reflexivity.
  - apply split_first in E as [-> E]; auto. apply A. exists (10%N :: b), []. cbn [app]. now rewrite <- !app_assoc.
Qed.
Lemma until_line (q a b x y : str) : ~ In 10%N q -> ~ has_line q a -> ~ has_line q b -> line a ++ line q ++ x = line b ++ line q ++ y -> a = b /\ x = y.
Proof.
  intros Q A B E. unfold line in E. rewrite <- !app_assoc in E.
  assert (F : a = b).
  { pose proof E as E0. apply app_eq_app in E0 as (l & [[-> _]|[-> _]]).
    - assert (l = []) as ->; [|apply app_nil_r]. apply (until_line_le q (b ++ l) b l x y Q A eq_refl). cbn [app] in *. now f_equal.
    - assert (l = []) as ->; [|symmetry; apply app_nil_r]. apply (until_line_le q (a ++ l) a l y x Q B eq_refl). cbn [app] in *. now f_equal. }
  split; [exact F|]. subst b. apply app_inv_head in E. cbn [app] in E. injection E as E. apply app_inv_head in E. now injection E.
Qed.

(** The parts of a text *)
Definition heads (s : str) : nat := match s with 69%N :: 120%N :: _ => 1 | 69%N :: 108%N :: _ => 2 | 84%N :: _ => 3 | 67%N :: _ => 4 | 10%N :: _ => 5 | _ => 0 end.
Lemma exit_line_shape c x : exit_line c x -> c = Some 0%Z /\ x = [] \/ exists w, ~ In 10%N w /\ x = line (of_string "Exit Code: " ++ w) /\
  ((exists n, c = Some (Z.of_nat n) /\ 0 < n /\ decimal n w) \/ (exists n d, c = Some (- Z.of_nat n)%Z /\ 0 < n /\ decimal n d /\ w = 45%N :: d) \/ c = None /\ w = of_string "N/A").
Proof.
  intros [|n d P D|n d P D|]; [now left|right..].
  - exists d. split; [exact (decimal_solid _ _ D)|]. split; [reflexivity|]. left. eauto.
  - exists (45%N :: d). split; [intros [I|I]; [discriminate|exact (decimal_solid _ _ D I)]|]. split; [reflexivity|]. right. left. eauto 6.
  - exists (of_string "N/A"). split; [apply one_line_const; reflexivity|]. split; [reflexivity|]. right. now right.
Qed.
Lemma decimal_chars n d : decimal n d -> forall c, In c d -> (48 <= c <= 57)%N.
Proof. induction 1 as [d L|n t d P L D IH]; intros c I; [destruct I as [<-|[]]; lia|]. apply in_app_iff in I as [I|[<-|[]]]; [now apply IH|lia]. Qed.
Lemma exit_line_same c c' w w' :
  ((exists n, c = Some (Z.of_nat n) /\ 0 < n /\ decimal n w) \/ (exists n d, c = Some (- Z.of_nat n)%Z /\ 0 < n /\ decimal n d /\ w = 45%N :: d) \/ c = None /\ w = of_string "N/A") ->
  ((exists n, c' = Some (Z.of_nat n) /\ 0 < n /\ decimal n w') \/ (exists n d, c' = Some (- Z.of_nat n)%Z /\ 0 < n /\ decimal n d /\ w' = 45%N :: d) \/ c' = None /\ w' = of_string "N/A") ->
  w = w' -> c = c'.
Proof.
  intros A B <-.
  destruct A as [(n & -> & P & D)|[(n & d & -> & P & D & ->)|[-> ->]]]; destruct B as [(m & -> & Q & F)|[(m & e & -> & Q & F & G)|[-> G]]]; try reflexivity.
  - now rewrite (decimal_value _ _ _ D F).
  - exfalso. subst w. pose proof (decimal_chars _ _ D 45%N (or_introl eq_refl)). lia.
  - exfalso. subst w. pose proof (decimal_chars _ _ D 78%N (or_introl eq_refl)). lia.
  - exfalso. pose proof (decimal_chars _ _ F 45%N (or_introl eq_refl)). lia.
  - injection G as <-. now rewrite (decimal_value _ _ _ D F).
  - discriminate.
  - exfalso. pose proof (decimal_chars _ _ F 78%N (or_introl eq_refl)). lia.
  - discriminate.
Qed.
Lemma time_line_shape f u e t : (forall e, plain (f e)) -> time_line f u e t -> exists w, ~ In 10%N w /\ t = line w /\
  ((exists s n d, u = Timeout /\ e = Some (s, n) /\ decimal s d /\ w = of_string "Timeout: Reached timeout after " ++ d ++ of_string "s")
   \/ (exists n m d, u <> Timeout /\ e = Some (0, n) /\ m = N.to_nat (n / 1000000) /\ decimal m d /\ w = of_string "Elapsed: " ++ d ++ of_string "ms")
   \/ (exists s n, u <> Timeout /\ 0 < s /\ e = Some (s, n) /\ w = of_string "Elapsed: " ++ f (s, n) ++ of_string "s")
   \/ u <> Timeout /\ e = None /\ w = []).
Proof.
  intros P [s n d D|v n m d U M D|v s n U L|v U].
  - eexists. split; [|split; [reflexivity|left; exists s, n, d; auto]]. repeat apply one_line_app; try const. exact (decimal_solid _ _ D).
  - apply div_range in M. eexists. split; [|split; [reflexivity|right; left; exists n, m, d; auto]]. repeat apply one_line_app; try const. exact (decimal_solid _ _ D).
  - eexists. split; [|split; [reflexivity|right; right; left; exists s, n; auto]]. repeat apply one_line_app; try const. intros I. apply (proj2 (P (s, n))) in I. lia.
  - exists []. split; [intros []|]. split; [reflexivity|]. auto 6.
Qed.
Ltac clash E := exfalso; apply (f_equal heads) in E; vm_compute in E; discriminate E.
Lemma output_shape name o x : output name o x -> o = [] /\ x = [] \/ o <> [] /\ x = line (of_string "Command Output (" ++ of_string name ++ of_string ") ----") ++ line o ++ line rule.
Proof. intros [|p N]; auto. Qed.
Lemma errs_same o o' x x' : output "stderr" o x -> output "stderr" o' x' -> x = x' -> o = o'.
Proof.
  intros A B E. apply output_shape in A as [[-> ->]|[N ->]]; apply output_shape in B as [[-> ->]|[N' ->]]; try reflexivity; try discriminate E.
  apply app_inv_head in E. apply app_inv_tail in E. unfold line in E. now apply app_inv_tail in E.
Qed.
Lemma outs_same o o' e e' x x' y y' : output "stdout" o x -> output "stdout" o' x' -> output "stderr" e y -> output "stderr" e' y' ->
  ~ has_line rule o -> ~ has_line rule o' -> x ++ y = x' ++ y' -> o = o' /\ y = y'.
Proof.
  intros A B C D H H' E. apply output_shape in A as [[-> ->]|[N ->]]; apply output_shape in B as [[-> ->]|[N' ->]].
  - now split.
  - exfalso. apply output_shape in C as [[-> ->]|[_ ->]]; [discriminate E|]. apply (f_equal (firstn 22)) in E. vm_compute in E. discriminate E.
  - exfalso. apply output_shape in D as [[-> ->]|[_ ->]]; [discriminate E|]. apply (f_equal (firstn 22)) in E. vm_compute in E. discriminate E.
  - rewrite <- !app_assoc in E. apply app_inv_head in E. apply until_line in E; auto. apply one_line_const. reflexivity.
Qed.
Lemma plain_s s d : plain s -> ~ s ++ of_string "s" = d ++ of_string "ms".
Proof.
  intros [N P] E. change (of_string "ms") with (of_string "m" ++ of_string "s") in E. rewrite app_assoc in E. apply app_inv_tail in E. subst s.
  specialize (P 109%N). rewrite in_app_iff in P. specialize (P (or_intror (or_introl eq_refl))). lia.
Qed.
Lemma shown_same f r r' t : (forall e, plain (f e)) -> ~ has_line rule (rs_stdout r) -> ~ has_line rule (rs_stdout r') -> shown f r t -> shown f r' t ->
  exit_code r = exit_code r' /\ (rs_status r = Timeout <-> rs_status r' = Timeout) /\ same_time r r' /\ rs_stdout r = rs_stdout r' /\ rs_stderr r = rs_stderr r'.
Proof.
  intros P H H' [c x u o e C X T O E] S. remember (x ++ u ++ o ++ e) as text eqn:G. destruct S as [c' x' u' o' e' C' X' T' O' E'].
  apply exit_code_code in C, C'. subst c c'.
  apply exit_line_shape in X, X'. apply time_line_shape in T as (w & W & -> & T); [|exact P]. apply time_line_shape in T' as (w' & W' & -> & T'); [|exact P].
  assert (K : exit_code r = exit_code r' /\ line w' ++ o' ++ e' = line w ++ o ++ e).
  { destruct X as [[A ->]|(v & V & -> & A)]; destruct X' as [[A' ->]|(v' & V' & -> & A')].
    - split; [congruence|exact G].
    - exfalso. cbn [app] in G. destruct T as [(s & n & d & _ & _ & _ & ->)|[(n & m & d & _ & _ & _ & _ & ->)|[(s & n & _ & _ & _ & ->)|(_ & _ & ->)]]]; clash G.
    - exfalso. cbn [app] in G. destruct T' as [(s & n & d & _ & _ & _ & ->)|[(n & m & d & _ & _ & _ & _ & ->)|[(s & n & _ & _ & _ & ->)|(_ & _ & ->)]]]; clash G.
    - apply line_same in G as [G1 G2]; [|apply one_line_app; [const|exact V']|apply one_line_app; [const|exact V]]. apply app_inv_head in G1.
      split; [|exact G2]. symmetry. exact (exit_line_same _ _ _ _ A' A G1). }
  destruct K as [K1 K2]. split; [exact K1|]. apply line_same in K2 as [K2 K3]; auto. symmetry in K3.
  assert (Q : (rs_status r = Timeout <-> rs_status r' = Timeout) /\ same_time r r').
  { unfold same_time. destruct T as [(s & n & d & U & -> & D & ->)|[(n & m & d & U & -> & M & D & ->)|[(s & n & U & L & -> & ->)|(U & -> & ->)]]];
      destruct T' as [(s' & n' & d' & U' & -> & D' & ->)|[(n' & m' & d' & U' & -> & M' & D' & ->)|[(s' & n' & U' & L' & -> & ->)|(U' & -> & ->)]]]; try discriminate K2.
    - split; [tauto|]. split; [|congruence]. intros _. apply app_inv_head, app_inv_tail in K2. subst d'. exact (decimal_value _ _ _ D D').
    - split; [tauto|]. split; [congruence|]. intros _. split; [tauto|]. intros _. apply app_inv_head, app_inv_tail in K2. subst d'.
      pose proof (decimal_value _ _ _ D D') as ME. exists (N.of_nat m). rewrite ME in M. split; [|rewrite ME in *]; apply div_range; congruence.
    - exfalso. apply app_inv_head in K2. exact (plain_s _ _ (P _) K2).
    - exfalso. apply app_inv_head in K2. symmetry in K2. exact (plain_s _ _ (P _) K2).
    - split; [tauto|]. split; [congruence|]. intros _. split; [lia|]. intros ->. lia.
    - tauto. }
  destruct Q as [Q1 Q2]. split; [exact Q1|]. split; [exact Q2|]. destruct (outs_same _ _ _ _ _ _ _ _ O O' E E' H H' K3) as [Q3 Q4]. split; [exact Q3|]. exact (errs_same _ _ _ _ E E' Q4).
Qed.
