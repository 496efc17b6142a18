(** C95: white space and whole lines. *)
From Coq Require Import String.
From Verif Require Import Base Text_Model Cursor_Model Check_Model Program_Model Parse_Model Parse_Spec Smart_Model Regex_Model PatSet_Model Whole_Model Whole_Spec White_Spec.
From Verif Require Parse_Proofs Script_Proofs Cli_Model Cli_Props Parse_Props.
Notation length := List.length.
Open Scope string_scope. Open Scope list_scope. Open Scope nat_scope.
Ltac splits := repeat match goal with |- _ /\ _ => split end.

(** ** What is left of a text *)
Definition ends (r s : str) : Prop := exists a, s = a ++ r.
Lemma ends_refl s : ends s s. Proof. now exists []. Qed.
Lemma ends_trans r s t : ends r s -> ends s t -> ends r t.
Proof. intros (a & ->) (b & ->). exists (b ++ a). now rewrite app_assoc. Qed.
Lemma ends_cons c s : ends s (c :: s). Proof. now exists [c]. Qed.
Lemma strip_ends p s r : Script_Model.strip_prefix p s = Some r -> ends r s.
Proof. intros H. apply Parse_Proofs.strip_prefix_spec in H. now exists p. Qed.
Lemma trim_ends s : ends (Script_Model.trim_start s) s.
Proof. induction s as [|c s IH]; cbn; [apply ends_refl|]. destruct (BoolExpr_Model.is_whitespace c); [eapply ends_trans; [exact IH|apply ends_cons]|apply ends_refl]. Qed.
Lemma skip_ends s : ends (skip_ascii s) s.
Proof. induction s as [|c s IH]; cbn; [apply ends_refl|]. destruct (is_ascii_ws c); [eapply ends_trans; [exact IH|apply ends_cons]|apply ends_refl]. Qed.
Lemma eol_ends s : ends (snd (to_eol s)) s /\ s = fst (to_eol s) ++ snd (to_eol s).
Proof. destruct (Parse_Proofs.to_eol_spec s) as (t & u & -> & -> & _). cbn. split; [now exists t|reflexivity]. Qed.
Lemma span_ends p s : ends (snd (span p s)) s.
Proof. induction s as [|c s IH]; cbn; [apply ends_refl|]. destruct (p c); [|apply ends_refl]. destruct (span p s) as [a b]. cbn in *. eapply ends_trans; [exact IH|apply ends_cons]. Qed.
Lemma first_some_in {A B} (f : A -> option B) l y : first_some f l = Some y -> exists x, In x l /\ f x = Some y.
Proof. induction l as [|x l IH]; cbn; [discriminate|]. destruct (f x) eqn:E; [intros [= <-]; eauto|]. intros H. destruct (IH H) as (z & I & Z). eauto. Qed.
Lemma mods_ends n : forall ok s r, mods_tail n ok s = Some r -> ends r s.
Proof.
  induction n as [|n IH]; intros ok s r H; cbn [mods_tail] in H; [discriminate|].
  assert (T : ends (if ok then Script_Model.trim_start s else s) s) by (destruct ok; [apply trim_ends|apply ends_refl]).
  destruct (Script_Model.strip_prefix (of_string "}") _) as [r0|] eqn:E; [injection H as <-; eapply ends_trans; [eapply strip_ends; exact E|exact T]|].
  destruct (Script_Model.strip_prefix (of_string ",") _) as [r1|] eqn:E1; [|discriminate]. destruct (Script_Model.strip_prefix (of_string "LITERAL") _) as [r2|] eqn:E2; [|discriminate].
  eapply ends_trans; [eapply IH; exact H|]. eapply ends_trans; [eapply strip_ends; exact E2|]. eapply ends_trans; [apply trim_ends|]. eapply ends_trans; [eapply strip_ends; exact E1|apply trim_ends].
Qed.
Lemma colon_ends s m : mods_colon s = Some m -> ends (snd m) s.
Proof.
  unfold mods_colon. destruct (Script_Model.strip_prefix (of_string "{") s) as [r|] eqn:E.
  - destruct (Script_Model.strip_prefix (of_string "LITERAL") _) as [r1|] eqn:E1; [|discriminate]. destruct (mods_tail _ _ _) as [r2|] eqn:E2; [|discriminate].
    destruct (Script_Model.strip_prefix (of_string ":") r2) as [r3|] eqn:E3; [|discriminate]. intros [= <-]. cbn [snd].
    eapply ends_trans; [eapply strip_ends; exact E3|]. eapply ends_trans; [eapply mods_ends; exact E2|]. eapply ends_trans; [eapply strip_ends; exact E1|]. eapply ends_trans; [apply trim_ends|eapply strip_ends; exact E].
  - destruct (Script_Model.strip_prefix (of_string ":") s) as [r3|] eqn:E3; [|discriminate]. intros [= <-]. cbn. eapply strip_ends; exact E3.
Qed.
Lemma comment_ends cfg s x : comment_at cfg s = Some x -> ends (snd x) s.
Proof.
  unfold comment_at. intros H. apply first_some_in in H as (p & _ & H). destruct (Script_Model.strip_prefix _ s) as [r|] eqn:E; [|discriminate]. pose proof (proj1 (eol_ends r)) as L. destruct (to_eol r) as [t u]. injection H as <-.
  cbn in *. eapply ends_trans; [exact L|eapply strip_ends; exact E].
Qed.
Lemma suffix_ends cfg sfx s x : suffix_at cfg sfx s = Some x -> ends (snd x) s.
Proof.
  unfold suffix_at. intros H. apply first_some_in in H as (p & _ & H). destruct (Script_Model.strip_prefix _ s) as [r|] eqn:E; [|discriminate]. apply strip_ends in E. destruct (fst sfx).
  - destruct (mods_colon r) as [m|] eqn:M; [|discriminate]. injection H as <-. cbn. apply colon_ends in M. eapply ends_trans; eassumption.
  - pose proof (span_ends Num_Model.is_dec r) as Sp. destruct (span Num_Model.is_dec r) as [[|d ds] r']; [discriminate|]. destruct (mods_colon r') as [m|] eqn:M; [|discriminate]. injection H as <-. cbn in *. apply colon_ends in M.
    eapply ends_trans; [exact M|]. eapply ends_trans; eassumption.
Qed.
Lemma boundary_ends {A} (f : str -> option (A * str)) (prev : option N) (s : str) (x : A * str) : (forall (s0 : str) (x0 : A * str), f s0 = Some x0 -> ends (snd x0) s0) -> boundary f prev s = Some x -> ends (snd x) s.
Proof.
  intros F. unfold boundary. set (g := match prev with None => true | Some c => N.eqb c 10 end). destruct (if g then f s else None) as [y|] eqn:E.
  - intros [= <-]. destruct g; [now apply F|discriminate].
  - destruct s as [|c r]; [discriminate|]. destruct (is_ws c); [|discriminate]. intros H. eapply ends_trans; [apply F; exact H|apply ends_cons].
Qed.
Lemma search_ends cfg s : forall prev x, search cfg prev s = Some x -> ends (snd x) s.
Proof.
  assert (M : forall prev s x, match_at cfg prev s = Some x -> ends (snd x) s).
  { intros prev s0 x. unfold match_at. destruct (boundary (comment_at cfg) prev s0) as [y|] eqn:E.
    - intros [= <-]. eapply boundary_ends; [apply comment_ends|exact E].
    - intros H. apply first_some_in in H as (sfx & _ & H). eapply boundary_ends; [apply suffix_ends|exact H]. }
  induction s as [|c s IH]; intros prev x; cbn [search]; (destruct (match_at cfg prev _) as [y|] eqn:E; [intros [= <-]; eapply M; exact E|]); [discriminate|].
  intros H. eapply ends_trans; [eapply IH; exact H|apply ends_cons].
Qed.

(** ** Texts with single spaces *)
Lemma single_part a s b : single_spaced (a ++ s ++ b) -> single_spaced s.
Proof.
  intros [S1 S2]. split.
  - intros c I. apply S1. apply in_app_iff. right. apply in_app_iff. now left.
  - intros x c d y ->. apply (S2 (a ++ x) c d (y ++ b)). rewrite <- !app_assoc. reflexivity.
Qed.
Lemma single_ends r s : ends r s -> single_spaced s -> single_spaced r.
Proof. intros (a & ->) H. apply (single_part a r []). now rewrite app_nil_r. Qed.
Lemma ascii_ws c : is_ascii_ws c = true -> ws c.
Proof. unfold is_ascii_ws. intros H. apply Script_Proofs.white_spec. unfold BoolExpr_Model.is_whitespace. lia. Qed.
Lemma no_blank c : ~ ws c -> BoolExpr_Model.is_whitespace c = false /\ is_ascii_ws c = false.
Proof.
  intros H. split; [destruct (BoolExpr_Model.is_whitespace c) eqn:E; [elim H; now apply Script_Proofs.white_spec|reflexivity]|].
  destruct (is_ascii_ws c) eqn:E; [elim H; now apply ascii_ws|reflexivity].
Qed.
Lemma ws_dec c : ws c \/ ~ ws c.
Proof. destruct (BoolExpr_Model.is_whitespace c) eqn:E; [left; now apply Script_Proofs.white_spec|right; intros H; apply Script_Proofs.white_spec in H; congruence]. Qed.
Lemma stripped l : single_spaced l -> ~ In 10%N l -> Script_Model.trim_start l = strip_space l /\ skip_ascii l = strip_space l.
Proof.
  intros [S1 S2] NL. destruct l as [|c r]; [split; reflexivity|]. destruct (ws_dec c) as [W|W].
  - assert (c = 32%N) as ->. { destruct (S1 c (or_introl eq_refl) W) as [->| ->]; [reflexivity|]. elim NL. now left. }
    unfold strip_space. change (N.eqb 32 32) with true. cbn iota. cbn [Script_Model.trim_start skip_ascii]. change (BoolExpr_Model.is_whitespace 32) with true. change (is_ascii_ws 32) with true. cbn iota.
    destruct r as [|d r]; [split; reflexivity|]. destruct (no_blank d) as [A B]; [intros X; apply (S2 [] 32%N d r); auto|]. cbn [Script_Model.trim_start skip_ascii]. now rewrite A, B.
  - destruct (no_blank c W) as [A B]. cbn [Script_Model.trim_start skip_ascii]. rewrite A, B. unfold strip_space. destruct (N.eqb_spec c 32) as [->|]; [elim W; apply Script_Proofs.white_spec; reflexivity|split; reflexivity].
Qed.
Definition refull (full : bool) (cfg : config) : config := mkConfig (check_prefixes cfg) (comment_prefixes cfg) (strict_whitespace cfg) full (allow_unused cfg).
Lemma pattern_full full cfg literal l : single_spaced l -> ~ In 10%N l -> lex_pattern (refull full cfg) literal l = lex_pattern (refull false cfg) literal l.
Proof.
  intros Ss NL. destruct (stripped l Ss NL) as [A B]. unfold lex_pattern. cbn [refull strict_whitespace match_full_lines]. rewrite A, B. now destruct (strict_whitespace cfg), full, literal.
Qed.
Lemma search_full full cfg : forall s prev, search (refull full cfg) prev s = search (refull false cfg) prev s.
Proof. induction s as [|c s IH]; intros prev; cbn [search]; [reflexivity|]. rewrite IH. reflexivity. Qed.
Lemma lex_full full cfg : forall n prev s, single_spaced s -> lex_file (refull full cfg) n prev s = lex_file (refull false cfg) n prev s.
Proof.
  induction n as [|n IH]; intros prev s Ss; [reflexivity|]. cbn [lex_file]. destruct s as [|c r]; [reflexivity|]. destruct (N.eqb c 0); [reflexivity|].
  destruct (if N.eqb c 10 then _ else _) as [lf [prev1 s1]] eqn:E1.
  assert (S1 : single_spaced s1). { destruct (N.eqb c 10); injection E1 as <- <- <-; [eapply single_ends; [apply ends_cons|exact Ss]|exact Ss]. }
  rewrite search_full.
  set (pv := if _ =? _ then _ else _). destruct (search (refull false cfg) pv (skip_ascii s1)) as [[f rest]|] eqn:Q; [|reflexivity].
  assert (Sr : single_spaced rest). { apply search_ends in Q. cbn in Q. eapply single_ends; [exact Q|]. eapply single_ends; [apply skip_ends|exact S1]. }
  destruct f as [t|p sh literal]; [now rewrite IH|]. pose proof (eol_ends rest) as [L1 L2]. destruct (Parse_Proofs.to_eol_spec rest) as (t & u & E & _ & NL & _). rewrite E in *. cbn [fst snd] in *.
  rewrite IH by (eapply single_ends; eassumption). rewrite (pattern_full full cfg literal t); [reflexivity| |exact NL]. apply (single_part [] t u). now rewrite <- L2.
Qed.
(** On a check file whose white space is single, --match-full-lines makes no difference. *)
Theorem full_lines_no_effect E T fuel rounds o pos checks input full : single_spaced checks ->
  verify E T fuel rounds (with_full full o) pos checks input = verify E T fuel rounds (with_full false o) pos checks input.
Proof.
  intros Ss. unfold verify. assert (P : parse_file (o_parse (with_full full o)) checks = parse_file (o_parse (with_full false o)) checks).
  { change (parse_file (refull full (o_parse o)) checks = parse_file (refull false (o_parse o)) checks). unfold parse_file. rewrite lex_full by exact Ss. reflexivity. }
  rewrite P. reflexivity.
Qed.
(** So it does not make matches cover whole lines. *)
Definition flags (strict full : bool) : options := mkOptions (mkConfig [of_string "CHECK"] [of_string "COM"; of_string "RUN"] strict full false) false false false [] [].
Definition passes (o : options) (checks input : str) : Prop := exists out, reports (verify ascii_engine ascii_set 20 20 o (fun n => (n, 1%Z)) checks input) out.
Theorem full_lines_refuted : exists checks input i, single_spaced checks /\
  reports (verify ascii_engine ascii_set 20 20 (flags false true) (fun n => (n, 1%Z)) checks input) [i] /\ ~ whole_line input (i_span i).
Proof.
  exists (of_string "CHECK: a"), (of_string "ab"), (mkInfo (mkRange 0 1) 0 0). splits.
  - split; [intros c I W; cbn in I; repeat (destruct I as [<-|I]; [try (now left); exfalso; apply Script_Proofs.white_spec in W; vm_compute in W; discriminate|]); destruct I|].
    intros a c d b H C D. apply Script_Proofs.white_spec in C, D.
    assert (Q : forall l, existsb (fun x => BoolExpr_Model.is_whitespace (fst x) && BoolExpr_Model.is_whitespace (snd x)) (combine l (tl l)) = false -> forall a b, l = a ++ c :: d :: b -> False).
    { clear -C D. intros l H a b ->. induction a as [|x a IH].
      - cbn in H. rewrite C, D in H. discriminate.
      - destruct a as [|y a]; cbn in H, IH; apply orb_false_iff in H as [_ H]; apply IH; exact H. }
    refine (Q (of_string "CHECK: a") _ _ _ H). vm_compute. reflexivity.
  - eexists. split; vm_compute; reflexivity.
  - intros (s & e & Hs & He & A & B & W). cbn in A, B. assert (s = 0) as -> by lia. assert (X : 1 < e). { destruct He as [->|H]; [vm_compute; lia|]. destruct (le_lt_dec e 1) as [L|L]; [|exact L]. destruct e as [|[|e]]; [vm_compute in H; discriminate|vm_compute in H; discriminate|lia]. }
    assert (Q : ws 98%N) by (apply (W 1); [right; cbn; lia|reflexivity]). apply Script_Proofs.white_spec in Q. vm_compute in Q. discriminate.
Qed.
(** Spaces and tabs: the check's tabs become spaces, the input's do not.  A space does not match a tab, a tab does not match a
    tab, unless --strict-whitespace is given. *)
Theorem tab_refuted : let space := of_string "CHECK: a b" in let tab := of_string "CHECK: a" ++ [9%N] ++ of_string "b" in let input := of_string "a" ++ [9%N] ++ of_string "b" in
  ~ passes (flags false false) space input /\ ~ passes (flags false false) tab input /\ passes (flags true false) tab input.
Proof.
  cbv zeta. splits.
  - intros (out & t & H & R). vm_compute in H. injection H as <-. vm_compute in R. discriminate.
  - intros (out & t & H & R). vm_compute in H. injection H as <-. vm_compute in R. discriminate.
  - eexists. eexists. split; vm_compute; reflexivity.
Qed.
Print Assumptions full_lines_no_effect.
Print Assumptions full_lines_refuted.
Print Assumptions tab_refuted.
