(** C64, C65, C66: the directives of a check file. *)
From Coq Require Import String.
From Verif Require Import Base Num_Model Env_Model Gram_Model Script_Model Parse_Model Parse_Spec Parse_Proofs Parse_Lines Parse_Tokens.
From Verif Require BoolExpr_Model BoolExpr_Proofs Script_Proofs.
Open Scope string_scope.
Open Scope list_scope.
Notation length := List.length.
Ltac splits := repeat match goal with |- _ /\ _ => split end.

Lemma plain_good cfg l : plain_line cfg l -> good cfg l.
Proof. intros (A & B & C & D). now splits. Qed.
Lemma file_nul ls : (forall l, In l ls -> forall r, l <> 0%N :: r) -> forall r, file ls <> 0%N :: r.
Proof.
  destruct ls as [|l ls]; [easy|]. intros H r. rewrite file_cons. destruct l as [|c l]; [destruct ls; [easy|discriminate]|].
  intros [= -> _]. now apply (H _ (or_introl eq_refl) l).
Qed.
Lemma sequence_spec l cs : sequence l = Some cs <-> exists css, Forall2 (fun o c => o = Some c) l css /\ cs = concat css.
Proof.
  revert cs. induction l as [|o l IH]; intros cs; cbn [sequence].
  - split; [intros [= <-]; exists []; now split|]. intros (css & F & ->). now inversion F.
  - split.
    + destruct o as [a|]; [|discriminate]. destruct (sequence l) as [b|] eqn:E; [|discriminate]. intros [= <-].
      destruct (proj1 (IH b) eq_refl) as (css & F & ->). exists (a :: css). split; [now constructor|reflexivity].
    + intros (css & F & ->). inversion F as [|? c ? css' -> F']; subst. cbn [both concat].
      now rewrite (proj2 (IH (concat css'))) by eauto.
Qed.
Lemma Forall2_map_l {A B C} (f : A -> B) (R : B -> C -> Prop) l m : Forall2 R (map f l) m <-> Forall2 (fun a => R (f a)) l m.
Proof.
  split.
  - revert m. induction l as [|a l IH]; intros m F; inversion F; subst; constructor; auto.
  - induction 1; constructor; auto.
Qed.
Lemma Forall2_weaken {A B} (R S : A -> B -> Prop) l m : (forall a b, In a l -> R a b -> S a b) -> Forall2 R l m -> Forall2 S l m.
Proof.
  intros H F. induction F as [|a b l m h F IH]; constructor; [apply H; [now left|easy]|]. apply IH. intros x y I. apply H. now right.
Qed.
Lemma parse_line cfg l : good_config cfg -> unambiguous cfg -> allow_unused cfg = true -> plain_line cfg l ->
  parse_file cfg l = parse (line_tokens cfg l).
Proof.
  intros G U A P. rewrite parse_file_any, A. rewrite parse_any_line; auto using plain_good; [|apply P]. cbn [fst]. now destruct (parse (line_tokens cfg l)).
Qed.

(** C64: a check file is read line by line: its directives are those of its lines, in order, and it is
    rejected when one of its lines is.  Missing for the full claim: a directive or comment that is
    indented (see the refutation), or whose modifiers are broken over lines. *)
Theorem check_file_by_line_partial cfg ls cs : good_config cfg -> unambiguous cfg -> allow_unused cfg = true ->
  Forall (plain_line cfg) ls ->
  (parse_file cfg (file ls) = Some cs <->
   exists css, Forall2 (fun l c => parse_file cfg l = Some c) ls css /\ cs = concat css).
Proof.
  intros G U A P. rewrite Forall_forall in P.
  rewrite parse_file_any, A, parse_any_file; auto.
  - cbn [fst]. transitivity (sequence (map (fun l => parse (line_tokens cfg l)) ls) = Some cs); [now destruct (sequence _)|].
    rewrite sequence_spec. split; intros (css & F & ->); exists css; (split; [|reflexivity]).
    + apply Forall2_map_l in F. apply Forall2_weaken with (2 := F). intros l c I E. rewrite parse_line; auto.
    + apply Forall2_map_l. apply Forall2_weaken with (2 := F). intros l c I E. rewrite parse_line in E; auto.
  - apply Forall_forall. auto using plain_good.
  - apply file_nul. intros l I. now apply P.
Qed.

(** An indented directive at the start of the file, or right after another one, is ignored. *)
Definition check_cfg : config := mkConfig [of_string "CHECK"] [of_string "COM"; of_string "RUN"] false false true.
Definition txt (s : string) : str := of_string s.
Definition lit_line (k : ckind) (s : string) : cline := mkCLine k false (PLit (of_string s)).
Theorem indented_directive_refuted :
  parse_file check_cfg (txt " CHECK: a") = Some [] /\
  parse_file check_cfg (file [txt "CHECK: a"; txt "  CHECK-NEXT: b"]) = Some [lit_line CPlain "a"] /\
  parse_file check_cfg (file [txt "; CHECK: a"; txt "  ; CHECK-NEXT: b"]) = Some [lit_line CPlain "a"; lit_line CNext "b"].
Proof. repeat split. Qed.

(** What a line without a directive, or with a comment, contributes. *)
Theorem line_without_directive cfg l o : good_config cfg -> unambiguous cfg -> allow_unused cfg = true -> plain_line cfg l ->
  says cfg l o -> (forall p sh b r, o <> Some (FCheck p sh b, r)) -> parse_file cfg l = Some [].
Proof.
  intros G U A P S0 N. rewrite parse_line by auto. apply says_spec in S0; auto. unfold line_tokens. rewrite S0.
  destruct o as [[[t|p sh b] r]|]; try reflexivity. now destruct (N p sh b r).
Qed.

(** C65: with unused prefixes disallowed (the default), a file is accepted iff it is accepted otherwise
    and every prefix is used by a directive of some line. *)
Definition with_unused (cfg : config) (b : bool) : config :=
  mkConfig (check_prefixes cfg) (comment_prefixes cfg) (strict_whitespace cfg) (match_full_lines cfg) b.

Lemma first_some_ext' {A B} (f g : A -> option B) l : (forall x, f x = g x) -> first_some f l = first_some g l.
Proof. intros H. induction l as [|x l IH]; [reflexivity|]. cbn. now rewrite H, IH. Qed.
Lemma at_unused cfg b s : comment_at (with_unused cfg b) s = comment_at cfg s /\ forall x, suffix_at (with_unused cfg b) x s = suffix_at cfg x s.
Proof. split; reflexivity. Qed.
Lemma search_unused cfg b : forall s prev, search (with_unused cfg b) prev s = search cfg prev s.
Proof.
  induction s as [|c s IH]; intros prev; cbn [search]; [reflexivity|]. now rewrite IH.
Qed.
Lemma lex_file_unused cfg b : forall n prev s, lex_file (with_unused cfg b) n prev s = lex_file cfg n prev s.
Proof.
  induction n as [|n IH]; intros prev s; [reflexivity|]. cbn [lex_file]. destruct s as [|c r]; [reflexivity|].
  destruct (N.eqb c 0); [reflexivity|]. destruct (if N.eqb c 10 then _ else _) as [lf [prev1 s1]].
  rewrite search_unused. destruct (search cfg _ (skip_ascii s1)) as [[[t|p sh literal] rest]|]; [| |reflexivity].
  - now rewrite IH.
  - destruct (to_eol rest) as [line rest']. now rewrite IH.
Qed.
Lemma parse_any_unused cfg b s : parse_any (with_unused cfg b) s = parse_any cfg s.
Proof. unfold parse_any. now rewrite lex_file_unused. Qed.
Lemma str_in p l : existsb (str_eqb p) l = true <-> In p l.
Proof.
  rewrite existsb_exists. split.
  - intros (x & I & E). apply str_eqb_eq in E. now subst.
  - intros I. exists p. split; [easy|]. now apply str_eqb_eq.
Qed.
Lemma unused_spec seen : forall ps earlier, NoDup ps -> (forall p, In p ps -> ~ In p earlier) ->
  unused_prefixes earlier ps seen = [] <-> forall p, In p ps -> In p seen.
Proof.
  induction ps as [|p ps IH]; intros earlier D N; cbn [unused_prefixes]; [easy|].
  inversion D as [|? ? Np D']; subst.
  assert (E : existsb (str_eqb p) earlier = false).
  { destruct (existsb (str_eqb p) earlier) eqn:X; [|easy]. apply str_in in X. exfalso. apply (N p (or_introl eq_refl) X). }
  rewrite E. cbn [negb]. rewrite andb_true_r. destruct (existsb (str_eqb p) seen) eqn:X.
  - rewrite IH; auto.
    + apply str_in in X. split; [intros H q [<-|I]; auto|intros H q I; apply H; now right].
    + intros q I [<-|J]; [easy|]. now apply (N q (or_intror I)).
  - split; [discriminate|]. intros H. specialize (H p (or_introl eq_refl)). apply str_in in H. congruence.
Qed.
Theorem unused_prefixes_rejected cfg ls cs : good_config cfg -> unambiguous cfg -> NoDup (check_prefixes cfg) ->
  Forall (plain_line cfg) ls -> allow_unused cfg = false ->
  (parse_file cfg (file ls) = Some cs <->
   parse_file (with_unused cfg true) (file ls) = Some cs /\
   forall p, In p (check_prefixes cfg) -> exists l sh b r, In l ls /\ says cfg l (Some (FCheck p sh b, r))).
Proof.
  intros G U D P A. rewrite Forall_forall in P.
  rewrite !parse_file_any, A. cbn [allow_unused with_unused]. rewrite parse_any_unused.
  rewrite parse_any_file; auto.
  2:{ apply Forall_forall. auto using plain_good. }
  2:{ apply file_nul. intros l I. now apply P. }
  cbn [fst snd]. set (o := sequence _).
  assert (H : unused_prefixes [] (check_prefixes cfg) (flat_map (line_prefix cfg) ls) = [] <->
    forall p, In p (check_prefixes cfg) -> exists l sh b r, In l ls /\ says cfg l (Some (FCheck p sh b, r))).
  { rewrite unused_spec; auto. split; intros H p I; specialize (H p I).
    - apply in_flat_map in H as (l & Il & H). unfold line_prefix in H. destruct (lsearch cfg l) as [[[t|q sh b] r]|] eqn:E; try easy.
      cbn in H. destruct H as [->|[]]. exists l, sh, b, r. split; [easy|]. now apply says_spec.
    - destruct H as (l & sh & b & r & Il & H). apply says_spec in H; auto. apply in_flat_map. exists l. split; [easy|].
      unfold line_prefix. rewrite H. now left. }
  rewrite <- H. destruct o as [x|]; [|easy]. destruct (unused_prefixes _ _ _); [tauto|]. split; [discriminate|]. intros [_ X]. discriminate.
Qed.

(** ** The hypotheses are met *)
(** Prefixes without '-' can be told apart. *)
Lemma dash_cut (p s p' s' : str) : ~ In 45%N p -> ~ In 45%N p' -> (s = [] \/ exists r, s = 45%N :: r) -> (s' = [] \/ exists r, s' = 45%N :: r) ->
  p ++ s = p' ++ s' -> p = p' /\ s = s'.
Proof.
  revert p'. induction p as [|c p IH]; intros [|c' p'] N N' D D' E; cbn in E.
  - now split.
  - destruct D as [->|(r & ->)]; [discriminate|]. injection E as <- _. exfalso. apply N'. now left.
  - destruct D' as [->|(r & ->)]; [discriminate|]. injection E as -> _. exfalso. apply N. now left.
  - injection E as <- E. destruct (IH p') with (5 := E) as [-> ->]; auto; cbn in *; tauto.
Qed.
Lemma keyword_inv cfg p sh b w : keyword cfg (FCheck p sh b) w ->
  exists s, In p (check_prefixes cfg) /\ w = p ++ s /\ (s = [] \/ exists r, s = 45%N :: r) /\
    match sh with ShKind k => suffix_of k = Some s | ShCount ds => s = of_string "-COUNT-" ++ ds end.
Proof.
  intros K. inversion K as [? k s ? I E|? ds ? I N D]; subst.
  - exists s. splits; auto. destruct k; try discriminate; injection E as <-; [now left|..]; right; eexists; reflexivity.
  - exists (of_string "-COUNT-" ++ ds). splits; auto. right. eexists. reflexivity.
Qed.
Theorem dashless_unambiguous cfg :
  Forall (fun p => ~ In 45%N p) (check_prefixes cfg) -> Forall (fun p => ~ In 45%N p) (comment_prefixes cfg) ->
  (forall p, In p (check_prefixes cfg) -> ~ In p (comment_prefixes cfg)) -> unambiguous cfg.
Proof.
  intros Dc Dm Disj. rewrite Forall_forall in Dc, Dm. split.
  - intros p sh b p' sh' b' w K K'. apply keyword_inv in K as (s & I & -> & D & M), K' as (s' & I' & E & D' & M').
    destruct (dash_cut _ _ _ _ (Dc _ I) (Dc _ I') D D' E) as [-> ->]. split; [reflexivity|].
    destruct sh as [k|ds], sh' as [k'|ds'].
    + f_equal. rewrite <- M' in M. destruct k, k'; try discriminate; reflexivity.
    + subst s'. destruct k; discriminate.
    + rewrite M in M'. destruct k'; discriminate.
    + f_equal. rewrite M in M'. now apply app_inv_head in M'.
  - intros p f I K. destruct f as [t|q sh b]; [inversion K|]. apply keyword_inv in K as (s & Iq & E & D & _).
    destruct (dash_cut p [] q s) as [-> _]; auto; [now rewrite app_nil_r|]. now apply (Disj q).
Qed.
Lemma prefix_ok (p : str) : forallb (fun c => negb (is_ws c) && negb (N.eqb c 58) && negb (N.eqb c 123) && negb (N.eqb c 0))%bool p = true -> p <> [] -> good_prefix p.
Proof.
  intros F N. split; [easy|]. apply Forall_forall. intros c I. rewrite forallb_forall in F. apply F in I.
  apply andb_prop in I as [I I4]. apply andb_prop in I as [I I3]. apply andb_prop in I as [I1 I2].
  repeat split.
  - intros W. apply BoolExpr_Proofs.is_white_spec in W. now rewrite W in I1.
  - now apply N.eqb_neq, negb_true_iff.
  - now apply N.eqb_neq, negb_true_iff.
  - now apply N.eqb_neq, negb_true_iff.
Qed.
(** the defaults *)
Lemma default_config strict full allow : let cfg := mkConfig [of_string "CHECK"] [of_string "COM"; of_string "RUN"] strict full allow in good_config cfg /\ unambiguous cfg.
Proof.
  cbn zeta. split.
  - split; [discriminate|]. split; [discriminate|].
    split; repeat (apply Forall_cons; [apply prefix_ok; [reflexivity|discriminate]|]); apply Forall_nil.
  - apply dashless_unambiguous; cbn.
    + repeat constructor. cbn. intuition discriminate.
    + repeat constructor; cbn; intuition discriminate.
    + intros p [<-|[]]. cbn. intuition discriminate.
Qed.
(** A line is plain when it begins with no white space and its braces are closed. *)
Fixpoint braces_closed (l : str) : bool :=
  match l with [] => true | c :: r => (negb (N.eqb c 123) || existsb (N.eqb 125) r) && braces_closed r end.
Definition plain_b (l : str) : bool :=
  negb (existsb (N.eqb 10) l) && braces_closed l &&
  match l with [] => true | c :: _ => negb (N.eqb c 32 || N.eqb c 9 || N.eqb c 12 || N.eqb c 13 || N.eqb c 0) end.
Lemma braces_spec l a u : braces_closed l = true -> l = a ++ of_string "{" ++ u -> In 125%N u.
Proof.
  intros H ->. induction a as [|c a IH]; cbn in H.
  - apply andb_prop in H as [H _]. apply existsb_exists in H as (x & I & E). apply N.eqb_eq in E. now subst.
  - apply andb_prop in H as [_ H]. now apply IH.
Qed.
Theorem plain_line_when cfg l : plain_b l = true -> plain_line cfg l.
Proof.
  intros H. apply andb_prop in H as [H H3]. apply andb_prop in H as [H1 H2]. repeat split.
  - intros I. apply negb_true_iff in H1. assert (X : existsb (N.eqb 10) l = true) by (apply existsb_exists; exists 10%N; split; [easy|reflexivity]). congruence.
  - intros a t f -> w u -> K. apply (braces_spec _ (a ++ w) u H2). now rewrite <- app_assoc.
  - intros a t f r -> N F. destruct a as [|c a]; [easy|]. inversion F as [|? ? Ic _]; subst. cbn in H3.
    destruct Ic as [->|[->|[->| ->]]]; discriminate.
  - intros r ->. discriminate.
Qed.
Ltac plain := apply plain_line_when; reflexivity.

Example by_line_case : let ls := [txt "; RUN: tool"; txt "; CHECK-LABEL: f"; txt "x = 1 ; CHECK{LITERAL}: [[x"; txt ""; txt "; CHECK-COUNT-2: y"] in
  Forall (plain_line check_cfg) ls /\
  parse_file check_cfg (file ls) = Some [lit_line CLabel "f"; mkCLine CPlain true (PLit (txt "[[x")); lit_line (CCount 2) "y"].
Proof. cbn zeta. split; [repeat (apply Forall_cons; [plain|]); apply Forall_nil|reflexivity]. Qed.
Example without_directive_case : plain_line check_cfg (txt "// XCHECK: a CHECK a") /\ says check_cfg (txt "// XCHECK: a CHECK a") None.
Proof. destruct (default_config false false true) as [G U]. split; [plain|]. now apply (says_spec check_cfg G U). Qed.
Definition two_cfg (allow : bool) : config := mkConfig [of_string "A"; of_string "B"] [of_string "COM"] false false allow.
Lemma two_config allow : good_config (two_cfg allow) /\ unambiguous (two_cfg allow).
Proof.
  split.
  - split; [discriminate|]. split; [discriminate|].
    split; repeat (apply Forall_cons; [apply prefix_ok; [reflexivity|discriminate]|]); apply Forall_nil.
  - apply dashless_unambiguous; cbn.
    + repeat constructor; cbn; intuition discriminate.
    + repeat constructor; cbn; intuition discriminate.
    + intros p. cbn. intuition (subst; discriminate).
Qed.
Example unused_case :
  Forall (plain_line (two_cfg false)) [txt "// A: x"; txt "// COM: B: x"] /\
  parse_file (two_cfg true) (file [txt "// A: x"; txt "// COM: B: x"]) = Some [lit_line CPlain "x"] /\
  parse_file (two_cfg false) (file [txt "// A: x"; txt "// COM: B: x"]) = None /\
  parse_file (two_cfg false) (file [txt "// A: x"; txt "// B-NEXT: x"]) = Some [lit_line CPlain "x"; lit_line CNext "x"].
Proof. split; [repeat (apply Forall_cons; [plain|]); apply Forall_nil|now repeat split]. Qed.

(** C64: the default prefixes are CHECK, and COM and RUN for comments. *)
Lemma search_same cfg cfg' prev s : checks_of cfg = checks_of cfg' -> comments_of cfg = comments_of cfg' ->
  search cfg prev s = search cfg' prev s.
Proof.
  intros A B. assert (M : forall q u, match_at cfg q u = match_at cfg' q u) by (intros q u; unfold match_at, comment_at, suffix_at; now rewrite A, B).
  revert prev. induction s as [|c s IH]; intros prev; cbn [search]; rewrite M; [reflexivity|]. now rewrite IH.
Qed.
Lemma lex_same cfg cfg' fuel : checks_of cfg = checks_of cfg' -> comments_of cfg = comments_of cfg' ->
  strict_whitespace cfg = strict_whitespace cfg' -> match_full_lines cfg = match_full_lines cfg' ->
  forall prev s, lex_file cfg fuel prev s = lex_file cfg' fuel prev s.
Proof.
  intros A B C D. induction fuel as [|k IH]; intros prev s; [reflexivity|]. cbn [lex_file]. destruct s as [|c r]; [reflexivity|].
  destruct (N.eqb c 0); [reflexivity|]. destruct (if N.eqb c 10 then _ else _) as [lf [prev1 s1]].
  rewrite (search_same cfg cfg') by easy. destruct (search cfg' _ _) as [[[t|p sh l] rest]|]; [now rewrite IH| |reflexivity].
  destruct (to_eol rest) as [line rest']. rewrite IH. unfold lex_pattern. now rewrite C, D.
Qed.
Theorem default_prefixes checks comments strict full allow s :
  parse_file (mkConfig checks [] strict full allow) s = parse_file (mkConfig checks [of_string "COM"; of_string "RUN"] strict full allow) s /\
  parse_file (mkConfig [] comments strict full true) s = parse_file (mkConfig [of_string "CHECK"] comments strict full true) s.
Proof.
  split; unfold parse_file.
  - rewrite (lex_same (mkConfig checks [] strict full allow) (mkConfig checks [of_string "COM"; of_string "RUN"] strict full allow)) by reflexivity. reflexivity.
  - rewrite (lex_same (mkConfig [] comments strict full true) (mkConfig [of_string "CHECK"] comments strict full true)) by reflexivity.
    destruct (lex_file _ _ _ _) as [ts seen]. destruct (parse_lines _ _); [|reflexivity]. cbn [allow_unused]. now repeat destruct (unused_prefixes _ _ _).
Qed.
Example default_prefixes_case :
  parse_file (mkConfig [] [] false false true) (file [txt "// CHECK: x"; txt "// RUN: CHECK: y"; txt "// COM: CHECK: z"]) = Some [lit_line CPlain "x"].
Proof. reflexivity. Qed.

Print Assumptions check_file_by_line_partial.
Print Assumptions default_prefixes.
Print Assumptions indented_directive_refuted.
Print Assumptions line_without_directive.
Print Assumptions unused_prefixes_rejected.
Print Assumptions dashless_unambiguous.
