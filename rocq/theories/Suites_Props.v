(** C102: the listings of suites and tests. *)
From Coq Require Import String.
From Verif Require Import Base Cursor_Model Num_Model Run_Model Report_Model Report_Spec Report_Props Input_Spec Suites_Model Suites_Spec Suites_Proofs.
Notation length := List.length.
Open Scope string_scope. Open Scope list_scope. Open Scope nat_scope.

Lemma decimal_once n d : decimal n d -> forall e, decimal n e -> d = e.
Proof.
  induction 1 as [d L|n t d P L D IH]; intros e E.
  - remember d as m eqn:M in E. destruct E as [f F|k u f P F K]; [now subst|lia].
  - remember (10 * n + d) as m eqn:M. destruct E as [f F|k u f Q F K]; [lia|]. assert (k = n) by lia. assert (f = d) by lia. subst k f. now rewrite (IH u K).
Qed.
(** What is specified about a listing is one text at most. *)
Section Widths.
Variable len : str -> nat.
Lemma table_once w l t : table len w l t -> forall u, table len w l u -> t = u.
Proof.
  induction 1 as [|k v i l t L T IH]; intros u U; inversion U; subst; [reflexivity|].
  match goal with H : table len _ l ?x |- _ => rewrite (IH x H) end. repeat f_equal. lia.
Qed.
Lemma table_row w k v l t : table len w ((k, v) :: l) t -> exists i u, len k + i = w /\ table len w l u /\ t = line (of_string "        - " ++ k ++ repeat 32%N i ++ of_string ": " ++ v) ++ u.
Proof. intros T. inversion T; subst. eauto. Qed.
Lemma widest_once l w v : l <> [] -> widest len l w -> widest len l v -> w = v.
Proof.
  intros N [A [->|(k & x & I & E)]] [B [C|(k' & x' & I' & E')]]; try congruence. apply Nat.le_antisymm; subst; eauto.
Qed.
Lemma table_widest l w v t u : widest len l w -> widest len l v -> table len w l t -> table len v l u -> t = u.
Proof.
  intros A B T U. destruct l as [|e l]; [inversion T; inversion U; reflexivity|].
  rewrite (widest_once (e :: l) v w) in U; [|discriminate|assumption|assumption]. eapply table_once; eassumption.
Qed.
Lemma entry_once s t u : entry len s t -> entry len s u -> t = u.
Proof.
  intros [d w ts v te D W T V U] [d' w' ts' v' te' D' W' T' V' U'].
  now rewrite (decimal_once _ _ D _ D'), (table_widest _ _ _ _ _ W W' T T'), (table_widest _ _ _ _ _ V V' U U').
Qed.
Lemma entries_once l t : entries len l t -> forall u, entries len l u -> t = u.
Proof. induction 1 as [|s l t r E F IH]; intros u U; inversion U; subst; [reflexivity|]. f_equal; [eapply entry_once; eassumption|now apply IH]. Qed.
Lemma listing_once l t u : listing_by len l t -> listing_by len l u -> t = u.
Proof. intros (r & E & ->) (r' & E' & ->). f_equal. eapply entries_once; eassumption. Qed.
End Widths.

(** If the keys are ASCII, the listing is the specified text: every suite with the number of its tests, its directories,
    its format, its features, and its substitutions and variables in columns. *)
Theorem C102_text_partial l t : Forall ascii_keys l -> listing l t <-> t = print_suites l.
Proof.
  intros A. split; [|intros ->; now apply listing_text]. intros L. exact (listing_once _ l _ _ L (listing_text l A)).
Qed.
Print Assumptions C102_text_partial.
(** Whatever the keys: the listing is the specified text, with columns counted in the bytes of the keys' UTF-8 encoding. *)
Theorem C102_bytes l t : listing_bytes l t <-> t = print_suites l.
Proof. split; [|intros ->; apply listing_bytes_text]. intros L. exact (listing_once _ l _ _ L (listing_bytes_text l)). Qed.
Print Assumptions C102_bytes.
(** Other keys are not in columns: widths are counted in bytes. *)
Theorem C102_columns_refuted : exists s, readable s /\ forall t, ~ (listing [s] t /\ t = print_suites [s]).
Proof.
  exists (mkSuite (of_string "s") 1 (of_string "/s") (of_string "/tmp/s") (of_string "shtest") [] [([37; 233]%N, of_string "1"); (of_string "%ab", of_string "2")] []).
  split.
  - repeat split; try (apply one_line_const; reflexivity); repeat constructor; try (apply one_line_const; reflexivity); cbn; try (intros [E|[E|[]]]; discriminate);
      try (intros [E|[E|[E|[]]]]; discriminate); intros [|a [|b [|c k]]] E; cbn in E; try discriminate E; injection E; intros; try discriminate; destruct k; discriminate.
  - intros t [(r & E & ->) F]. inversion E as [|s l t r' X Y Z1 Z2]; subst. inversion Y; subst. rewrite app_nil_r in F. apply app_inv_head in F. cbn [flat_map] in F. rewrite app_nil_r in F.
    destruct X as [d w ts v te D W T V U]. unfold print_suite in F. cbn [su_name su_tests su_source su_exec su_format su_features su_substitutions su_env] in *.
    apply decimal_once with (e := of_string "1") in D; [|apply (d_one 1); lia]. subst d.
    apply table_row in T as (i & t1 & L1 & T & ->). apply table_row in T as (j & t2 & L2 & T & ->).
    cbn in L1, L2. assert (i = S j) by lia. subst i. vm_compute in F. discriminate F.
Qed.
Print Assumptions C102_columns_refuted.

(** Whatever the keys are written in: what is printed says everything about the suites, if the texts are of one line and
    the keys have no colon and no space at their end. *)
Theorem C102_read_back l l' : Forall readable l -> Forall readable l' -> print_suites l = print_suites l' -> l = l'.
Proof. intros A B E. apply app_inv_head in E. now apply suites_same. Qed.
Print Assumptions C102_read_back.
(** Not so with colons. *)
Theorem C102_colon_refuted : exists s s', ascii_keys s /\ ascii_keys s' /\ s <> s' /\ print_suites [s] = print_suites [s'].
Proof.
  exists (mkSuite (of_string "s") 1 (of_string "/s") (of_string "/tmp/s") (of_string "shtest") [] [] [(of_string "A", of_string "B: C")]).
  exists (mkSuite (of_string "s") 1 (of_string "/s") (of_string "/tmp/s") (of_string "shtest") [] [] [(of_string "A: B", of_string "C")]).
  split; [|split; [|split; [discriminate|vm_compute; reflexivity]]]; (split; [intros k v []|]); intros k v [E|[]]; injection E; intros <- <-; intros c I; cbn in I;
    repeat (destruct I as [<-|I]; [reflexivity|]); destruct I.
Qed.
Print Assumptions C102_colon_refuted.

(** The listing of tests: the suite, the path and the format of every test can be read from it, if suites have no colon
    in their names. *)
Definition test_readable (x : str * str * str) : Prop :=
  one_line (fst (fst x)) /\ ~ In 58%N (fst (fst x)) /\ one_line (snd (fst x)) /\ In (snd x) [of_string "shtest"; of_string "executable"].
Lemma format_fine f : In f [of_string "shtest"; of_string "executable"] -> one_line f /\ ~ In 61%N f.
Proof. intros [<-|[<-|[]]]; (split; [apply one_line_const; reflexivity|]); intros I; cbn in I; repeat (destruct I as [I|I]; [discriminate I|]); destruct I. Qed.
Theorem C102_tests_read_back {test} (describe : test -> str * str * str) l l' :
  Forall (fun t => test_readable (describe t)) l -> Forall (fun t => test_readable (describe t)) l' ->
  print_tests describe l = print_tests describe l' -> map describe l = map describe l'.
Proof.
  intros A B E. apply app_inv_head in E. revert l' B E. induction A as [|t l R A IH]; intros [|t' l'] B E; [reflexivity| | |].
  - cbn [flat_map] in E. destruct (describe t') as [[s p] f]. discriminate E.
  - cbn [flat_map] in E. destruct (describe t) as [[s p] f]. discriminate E.
  - inversion B as [|? ? R' B']; subst. cbn [flat_map map] in *. destruct (describe t) as [[s p] f], (describe t') as [[s' p'] f'].
    destruct R as (R1 & R2 & R3 & R4), R' as (R1' & R2' & R3' & R4'). cbn [fst snd] in *. destruct (format_fine f R4) as [F1 F2]. destruct (format_fine f' R4') as [F1' F2'].
    rewrite !println_line in E. apply line_same in E as [E1 E2]; [|repeat apply one_line_app; auto; apply one_line_const; reflexivity|repeat apply one_line_app; auto; apply one_line_const; reflexivity].
    apply app_inv_head in E1. change (of_string "::" ++ ?x) with (58%N :: (58%N :: x)) in E1.
    change (s ++ 58%N :: (58%N :: (p ++ of_string " (format=" ++ f ++ of_string ")")) = s' ++ 58%N :: (58%N :: (p' ++ of_string " (format=" ++ f' ++ of_string ")"))) in E1.
    apply split_first in E1 as [-> E1]; auto. apply (f_equal (skipn 1)) in E1.
    change (p ++ of_string " (format=" ++ f ++ of_string ")" = p' ++ of_string " (format=" ++ f' ++ of_string ")") in E1. rewrite !app_assoc in E1. apply app_inv_tail in E1.
    change (of_string " (format=") with (of_string " (format" ++ [61%N]) in E1. rewrite !(app_assoc _ (of_string " (format") [61%N]) in E1.
    rewrite <- (app_assoc (p ++ _) [61%N] f), <- (app_assoc (p' ++ _) [61%N] f') in E1. cbn [app] in E1.
    apply split_last in E1 as [E1 ->]; auto. apply app_inv_tail in E1. subst. f_equal. now apply IH.
Qed.
Print Assumptions C102_tests_read_back.
Theorem C102_tests_refuted : exists x y : str * str * str, x <> y /\ print_tests (fun x => x) [x] = print_tests (fun x => x) [y].
Proof.
  exists (of_string "a", of_string "b::c.txt", of_string "shtest"), (of_string "a::b", of_string "c.txt", of_string "shtest"). split; [discriminate|vm_compute; reflexivity].
Qed.
Print Assumptions C102_tests_refuted.

(** Concrete cases. *)
Example listing_case :
  let s := mkSuite (of_string "my suite") 12 (of_string "/src/tests") (of_string "/tmp/x") (of_string "shtest") [of_string "linux"]
             [(of_string "%s", of_string "/src"); (of_string "%tool", of_string "cc: fast")] [(of_string "PATH", of_string "/bin")] in
  ascii_keys s /\ readable s /\ test_readable (su_name s, of_string "a/b::c.txt", su_format s) /\
  print_suites [s] = line (of_string "-- Test Suites --") ++ line (of_string "  * my suite - 12 tests") ++ line (of_string "    Source Root  : /src/tests")
    ++ line (of_string "    Exec Root    : /tmp/x") ++ line (of_string "    Test Format  : shtest") ++ line (of_string "    Available Features:") ++ line (of_string "        - linux")
    ++ line (of_string "    Available Substitutions:") ++ line (of_string "        - %s   : /src") ++ line (of_string "        - %tool: cc: fast")
    ++ line (of_string "    Environment Variables:") ++ line (of_string "        - PATH: /bin").
Proof.
  cbv zeta. split; [|split; [|split; [|vm_compute; reflexivity]]].
  - assert (G : forall k : str, forallb (fun c => c <? 128)%N k = true -> ascii k) by (intros k E c I; rewrite forallb_forall in E; apply E in I; now apply N.ltb_lt).
    split; intros k v I; cbn [su_substitutions su_env] in I; [destruct I as [E|[E|[]]]|destruct I as [E|[]]]; injection E; intros <- <-; apply G; reflexivity.
  - assert (G : forall k : str, (existsb (N.eqb 10) k || existsb (N.eqb 58) k || N.eqb 32 (last k 0%N))%bool = false -> delimited k).
    { intros k E. apply orb_false_elim in E as [E E3]. apply orb_false_elim in E as [E1 E2]. split; [now apply one_line_const|]. split.
      - intros I. enough (existsb (N.eqb 58) k = true) by congruence. apply existsb_exists. exists 58%N. now split.
      - intros k' ->. rewrite last_last in E3. discriminate. }
    repeat split; try (apply one_line_const; reflexivity); repeat constructor; cbn [fst snd]; try (apply one_line_const; reflexivity); try (apply G; reflexivity).
  - repeat split; try (apply one_line_const; reflexivity); cbn; [|now left]. intros I. repeat (destruct I as [I|I]; [discriminate I|]). destruct I.
Qed.
