(** C77-C79: the command line of filecheck. *)
From Coq Require Import String Sorted.
From Verif Require Import Base Num_Model Num_Spec Num_Proofs Env_Model Gram_Model Gram_Proofs Script_Model Parse_Model Parse_Spec Pat_Spec Sum_Spec.
From Verif Require Import Text_Model Cursor_Model Regex_Model Check_Model Smart_Model PatSet_Model Whole_Model Whole_Spec.
From Verif Require Import Pat_Proofs Pat_Block Sum_Props Cli_Model Cli_Spec Cli_Proofs.
From Verif Require Num_Props Env_Spec Env_Proofs Script_Proofs Map_Model PatSet_Engine.
Open Scope string_scope.
Open Scope list_scope.
Open Scope nat_scope.
Notation length := List.length.

(** ** C77 *)
(** A definition that does not begin with '#' is accepted exactly if it is a name, '=' and a text; it gives
    the name that text, whatever the text is. *)
Theorem text_definition_exact line s n v : ~ starts (of_string "#") s ->
  (cli_define line s = Some (n, v) <-> exists x t, defines_text s x t /\ n = User x /\ v = VStr t).
Proof. intros N. unfold cli_define. rewrite (proj2 (strip_none _ _) N). apply text_definition_spec. Qed.
(** The name ends at the first '='. *)
Theorem text_definition_unique s x t x' t' : defines_text s x t -> defines_text s x' t' -> x = x' /\ t = t'.
Proof.
  intros H H'. assert (A : text_definition s = Some (User x, VStr t)) by (apply text_definition_spec; eauto).
  assert (B : text_definition s = Some (User x', VStr t')) by (apply text_definition_spec; eauto). rewrite A in B. now injection B as -> ->.
Qed.
(** Global variables cannot be defined. *)
Theorem global_definition_refuted line x t : cli_define line (of_string "$" ++ x ++ of_string "=" ++ t) = None.
Proof.
  destruct (cli_define line (of_string "$" ++ x ++ of_string "=" ++ t)) as [[n v]|] eqn:E; [|reflexivity]. exfalso.
  apply text_definition_exact in E as (y & u & [(c & r & -> & L & _) X] & _); [|intros (q & X); discriminate]. injection X as <- _. unfold letter in L. lia.
Qed.
Example text_definition_case line :
  cli_define line (of_string "FILE=a=b c") = Some (User (of_string "FILE"), VStr (of_string "a=b c")) /\
  cli_define line (of_string "FILE=") = Some (User (of_string "FILE"), VStr []) /\
  cli_define line (of_string "FILE") = None /\ cli_define line (of_string "=x") = None /\ cli_define line (of_string "A-B=x") = None.
Proof. repeat split. Qed.

(** ** C78 *)
Lemma hash_spelled s ts : spelled (of_string "#" ++ s) (CT THash :: ts) <-> spelled s ts.
Proof.
  split; [|apply (sl_mark "#" THash); cbn; tauto]. intros H. pose proof (spelled_lex _ _ H (S (S (length s))) ltac:(cbn; lia)) as E.
  rewrite (clex_mark _ "#" THash) in E by (cbn; tauto). apply map_some in E as (us & E & [= ->]). now apply lex_spelled in E.
Qed.
Lemma hash_first s ts : spelled (of_string "#" ++ s) ts -> exists us, ts = CT THash :: us /\ spelled s us.
Proof.
  intros H. pose proof (spelled_lex _ _ H (S (S (length s))) ltac:(cbn; lia)) as E.
  rewrite (clex_mark _ "#" THash) in E by (cbn; tauto). apply map_some in E as (us & E & ->). exists us. split; [easy|]. now apply lex_spelled in E.
Qed.
Lemma means_eval env line e z : expr_means env (eval_of line e) z <-> tree_value (value_of env line) e z.
Proof.
  revert z. induction e as [n|v|op a IHa b IHb]; intros z.
  - cbn. split; intros H; inversion H; subst; [constructor|apply (em_num _ (mkNum None z))].
  - assert (V : forall x, expr_means env (EVar x) z <-> exists d, env x = Some (VNum d) /\ expr_means env d z) by (intros x; split; [intros H; inversion H; subst; eauto|intros (d & A & B); econstructor; eauto]).
    assert (T : tree_value (value_of env line) (PVar v) z <-> value_of env line v z) by (split; [intros H; now inversion H|intros H; now constructor]).
    rewrite T. destruct v as [x|x|x]; cbn [eval_of value_of]; [|apply V|apply V]. destruct (str_eqb x (of_string "LINE")) eqn:X.
    + apply str_eqb_eq in X. split; [intros H; inversion H; subst; now left|intros [[_ ->]|[N _]]; [constructor|easy]].
    + rewrite V. split; [intros H; right; split; [intros ->; discriminate|exact H]|intros [[-> _]|[_ H]]; [discriminate|exact H]].
  - cbn [eval_of]. rewrite tree_bin. split.
    + intros H. inversion H; subst. do 2 eexists. splits; [apply IHa; eassumption|apply IHb; eassumption|assumption].
    + intros (x & y & A & B & O). apply IHa in A. apply IHb in B. econstructor; eauto.
Qed.
Lemma number_words s n e : (exists ts, spelled (of_string "#" ++ s) ts /\ c_numeric ts n e) <->
  exists x ws f, spelled s (map CT f ++ CT (TIdent x) :: CEqual :: map CT ws) /\ (f = [] \/ format_words f) /\ n = User x /\ d_expr ws e.
Proof.
  split.
  - intros (ts & Sp & H). destruct H as [f w a e F D|w a e D]; apply (proj1 (hash_spelled _ _)) in Sp.
    + exists w, a, (f ++ [TComma]). splits; auto; [rewrite map_app, <- app_assoc; exact Sp|right; now apply format_spec].
    + exists w, a, []. splits; auto.
  - intros (x & ws & f & Sp & F & -> & D). exists (CT THash :: map CT f ++ CT (TIdent x) :: CEqual :: map CT ws). split; [now apply hash_spelled|].
    destruct F as [-> | F]; [now apply cn_plain|]. assert (X : exists g, f = g ++ [TComma]).
    { destruct F as (h & p & t & -> & _). exists (TPercent :: h ++ p ++ t). cbn. now rewrite <- !app_assoc. }
    destruct X as (g & ->). apply format_spec in F. rewrite map_app, <- app_assoc. now apply cn_format.
Qed.
Lemma numeric_define line s n v : cli_define line (of_string "#" ++ s) = Some (n, v) <->
  exists x ws f e, spelled s (map CT f ++ CT (TIdent x) :: CEqual :: map CT ws) /\ (f = [] \/ format_words f) /\ n = User x /\ d_expr ws e /\ v = VNum (eval_of line e).
Proof.
  transitivity (exists e, v = VNum (eval_of line e) /\ exists ts, spelled (of_string "#" ++ s) ts /\ c_numeric ts n e).
  - unfold cli_define. replace (strip_prefix (of_string "#") (of_string "#" ++ s)) with (Some s) by (symmetry; now apply Script_Proofs.strip_prefix_spec).
    split.
    + destruct (cli_lex _ _) as [ts|] eqn:L; [|discriminate]. intros H. apply map_some in H as ([n' e] & P & [= -> ->]). apply numeric_spec in P. apply lex_spelled in L. eauto.
    + intros (e & -> & ts & Sp & H). rewrite (spelled_lex _ _ Sp) by lia. apply numeric_spec in H. now rewrite H.
  - split.
    + intros (e & -> & H). apply number_words in H as (x & ws & f & H). exists x, ws, f, e. tauto.
    + intros (x & ws & f & e & Sp & F & -> & D & ->). exists e. split; [easy|]. apply number_words. exists x, ws, f. auto.
Qed.
(** '#' begins the definition of a number: a name, '=' and an expression, possibly after a format and a comma.
    The value of the name is that of the expression, its operators being applied from left to right. *)
Theorem numeric_definition_accepted line s x ws : defines_number s x ws ->
  exists e, cli_define line (of_string "#" ++ s) = Some (User x, VNum e) /\ forall env z, expr_means env e z <-> sum_value (value_of env line) ws z.
Proof.
  intros (f & Sp & F & Sf). destruct (proj2 form_tree ws Sf) as (e & D). exists (eval_of line e). split; [apply numeric_define; exists x, ws, f, e; tauto|].
  intros env z. rewrite means_eval. apply expr_value; [easy|]. apply (spelled_clean s (map CT f ++ [CT (TIdent x); CEqual]) ws []). rewrite app_nil_r, <- app_assoc. exact Sp.
Qed.
Theorem numeric_definition_refused line s n v : cli_define line (of_string "#" ++ s) = Some (n, v) -> exists x ws, defines_number s x ws /\ n = User x.
Proof.
  intros H. apply numeric_define in H as (x & ws & f & e & Sp & F & -> & D & ->). exists x, ws. split; [|easy]. exists f. splits; auto.
  apply (proj1 tree_form ws e D). apply (spelled_clean s (map CT f ++ [CT (TIdent x); CEqual]) ws []). rewrite app_nil_r, <- app_assoc. exact Sp.
Qed.
Theorem numeric_definition_unique s x ws x' ws' : defines_number s x ws -> defines_number s x' ws' -> x = x' /\ ws = ws'.
Proof.
  intros (f & Sp & F & _) (f' & Sp' & F' & _). pose proof (words_unique _ _ _ Sp Sp') as E. clear -E.
  assert (B : before_equal (map CT f ++ CT (TIdent x) :: CEqual :: map CT ws) = Some (f ++ [TIdent x], map CT ws)) by (apply before_equal_spec; rewrite map_app, <- app_assoc; reflexivity).
  assert (B' : before_equal (map CT f' ++ CT (TIdent x') :: CEqual :: map CT ws') = Some (f' ++ [TIdent x'], map CT ws')) by (apply before_equal_spec; rewrite map_app, <- app_assoc; reflexivity).
  rewrite E, B' in B. injection B as B M. apply app_inj_tail in B as [_ [= ->]]. split; [easy|].
  assert (P : plain_tokens (map CT ws) = Some ws) by (now apply plain_tokens_spec). rewrite <- M in P. rewrite (proj2 (plain_tokens_spec _ ws') eq_refl) in P. congruence.
Qed.
(** The evaluator agrees (C47): a variable of that value, where it is used. *)
Theorem numeric_definition_value line s x ws e env explicit fuel m : defines_number s x ws ->
  cli_define line (of_string "#" ++ s) = Some (User x, VNum e) -> env x = Some (VNum e) ->
  evaluate_expr fuel env explicit (EVar x) = RNum m -> sum_value (value_of env line) ws (nvalue m).
Proof.
  intros D C V R. destruct (numeric_definition_accepted line s x ws D) as (e' & C' & M). rewrite C in C'. injection C' as <-.
  apply Num_Props.C47_value in R. inversion R as [| |? e0 ? E0 M0|]; subst. rewrite V in E0. injection E0 as <-. now apply M.
Qed.
Definition num (s : string) : option (vname * value) := cli_define 1 (of_string s).
Definition N_ : vname := User (of_string "N").
(** "5-3" is two numbers, 5 and -3, and no expression; "5 - 3" is one. *)
Theorem minus_refuted : num "#N=5-3" = None /\ num "#N=X-1" = None /\
  num "#N=5 - 3" = Some (N_, VNum (EBin Num_Model.OSub (ENum (mkNum None 5)) (ENum (mkNum None 3)))).
Proof. repeat split. Qed.
(** A format makes no difference. *)
Theorem definition_format_refuted line s t : format_words t -> forall x ws, sum_form ws ->
  spelled s (map CT t ++ CT (TIdent x) :: CEqual :: map CT ws) -> forall r, spelled r (CT (TIdent x) :: CEqual :: map CT ws) ->
  cli_define line (of_string "#" ++ s) = cli_define line (of_string "#" ++ r).
Proof.
  intros F x ws Sf Sp r Sr. destruct (proj2 form_tree ws Sf) as (e & D).
  transitivity (Some (User x, VNum (eval_of line e))).
  - apply numeric_define. exists x, ws, t, e. tauto.
  - symmetry. apply numeric_define. exists x, ws, [], e. splits; auto.
Qed.
(** A variable defined by itself has no value, and evaluating it never ends. *)
Theorem own_definition_refuted : exists e, num "#N=N + 1" = Some (N_, VNum e) /\
  forall fuel (env : str -> option value) explicit, env (of_string "N") = Some (VNum e) -> evaluate_expr fuel env explicit (EVar (of_string "N")) = RFuel.
Proof.
  eexists. split; [reflexivity|]. intros fuel env explicit H. induction fuel as [fuel IH] using lt_wf_ind. destruct fuel as [|fuel]; [reflexivity|].
  change (match env (of_string "N") with None | Some VUndef => RUndefined (of_string "N") | Some (VNum e') => evaluate_expr fuel env explicit e' | Some (VStr s) => RStr s end = RFuel).
  rewrite H. destruct fuel as [|fuel]; [reflexivity|]. change (evaluate_expr (S fuel) env explicit (EBin OAdd (EVar (of_string "N")) (ENum (mkNum None 1))) = RFuel).
  cbn [evaluate_expr]. rewrite (IH fuel) by lia. reflexivity.
Qed.
Example numeric_definition_case : let s := of_string "%.8X, N = (A - 2) + mul(3,-4)" in
  exists ws, defines_number s (of_string "N") ws /\
    sum_value (value_of (fun x => if str_eqb x (of_string "A") then Some (VNum (ENum (mkNum None 7))) else None) 1) ws (-7)%Z.
Proof.
  cbn zeta. set (ws := [TLParen; TIdent (of_string "A"); TMinus; TNum 2; TRParen; TPlus; TMul; TLParen; TNum 3; TComma; TNum (-4); TRParen]).
  exists ws. split.
  - exists [TPercent; TDot; TNum 8; TIdent (of_string "X"); TComma]. splits.
    + apply lex_spelled with 40. reflexivity.
    + right. exists [], [TDot; TNum 8], [TIdent (of_string "X")]. splits; [reflexivity|now left|right; exists 8%Z; split; [reflexivity|lia]|right; exists "X"; cbn; auto 6].
    + apply (sf_plus [TLParen; TIdent (of_string "A"); TMinus; TNum 2; TRParen] [TMul; TLParen; TNum 3; TComma; TNum (-4); TRParen]).
      * apply sf_one. apply (tf_paren [TIdent (of_string "A"); TMinus; TNum 2]). apply (sf_minus [TIdent (of_string "A")] [TNum 2]); [|constructor]. apply sf_one. eapply tf_name. constructor.
      * apply (tf_fun TMul OMul [TNum 3] [TNum (-4)]); [constructor|apply sf_one; constructor..].
  - apply (sv_sum _ [TLParen; TIdent (of_string "A"); TMinus; TNum 2; TRParen] [TPlus; TMul; TLParen; TNum 3; TComma; TNum (-4); TRParen] 5).
    + apply (tv_paren _ [TIdent (of_string "A"); TMinus; TNum 2]). apply (sv_sum _ [TIdent (of_string "A")] [TMinus; TNum 2] 7).
      * eapply tv_name; [constructor|]. cbn. eexists. split; [reflexivity|]. apply (em_num _ (mkNum None 7)).
      * apply (rv_minus _ 7 [TNum 2] 2 []); constructor.
    + apply (rv_plus _ 5 [TMul; TLParen; TNum 3; TComma; TNum (-4); TRParen] (-12) []); [|apply rv_end].
      apply (tv_fun _ TMul OMul [TNum 3] [TNum (-4)] 3 (-4) (-12)); [constructor|apply sum_term; constructor..|constructor].
Qed.

(** ** C79 *)
Lemma given_spec alnum a default ds l : (forall c, ascii_letter c -> alnum c = true) -> split_commas default = map of_string ds ->
  prefixes_given alnum default a = Some l <-> l = flat_map split_commas (match a with [] => [default] | _ => a end) /\ forall p, asked ds a p -> prefix_form alnum p.
Proof.
  intros A D. unfold prefixes_given. set (k := flat_map split_commas _). assert (I : forall p, In p k <-> asked ds a p).
  { intros p. unfold k, asked. rewrite in_flat_map. destruct a as [|v a].
    - split; [intros (v & [<-|[]] & I); rewrite D in I; now left|]. intros [[_ I]|(v & [] & _)]. exists default. split; [now left|]. now rewrite D.
    - split; [intros (u & Iu & I); right; exists u; split; [easy|]; now apply split_commas_spec|]. intros [[E _]|(u & Iu & I)]; [discriminate|]. exists u. split; [easy|]. now apply split_commas_spec. }
  destruct (forallb (prefix_ok alnum) k) eqn:F.
  - split; [intros [= <-]; split; [easy|]|now intros [-> _]]. intros p Hp. apply (prefix_ok_spec alnum p A). rewrite forallb_forall in F. apply F. now apply I.
  - split; [discriminate|]. intros [_ H]. exfalso. assert (X : forallb (prefix_ok alnum) k = true); [|congruence]. apply forallb_forall. intros p Ip. apply (prefix_ok_spec alnum p A). apply H. now apply I.
Qed.
Lemma given_in alnum a default ds l : (forall c, ascii_letter c -> alnum c = true) -> split_commas default = map of_string ds ->
  prefixes_given alnum default a = Some l -> forall p, In p l <-> asked ds a p.
Proof.
  intros A D H p. apply (given_spec _ _ _ _ _ A D) in H as [-> _]. unfold asked. rewrite in_flat_map. destruct a as [|v a].
  - split; [intros (v & [<-|[]] & I); rewrite D in I; now left|]. intros [[_ I]|(v & [] & _)]. exists default. split; [now left|]. now rewrite D.
  - split; [intros (u & Iu & I); right; exists u; split; [easy|]; now apply split_commas_spec|]. intros [[E _]|(u & Iu & I)]; [discriminate|]. exists u. split; [easy|]. now apply split_commas_spec.
Qed.
Lemma all_some_spec {A} (l : list (option A)) r : all_some l = Some r <-> l = map Some r.
Proof.
  revert r. induction l as [|[x|] l IH]; intros r; cbn.
  - split; [intros [= <-]; reflexivity|now destruct r].
  - split; [intros H; apply map_some in H as (y & H & ->); apply IH in H as ->; reflexivity|]. destruct r as [|y r]; [discriminate|]. intros [= -> H]. apply IH in H. now rewrite H.
  - split; [discriminate|now destruct r].
Qed.
Lemma definition_accepted line s : (exists d, cli_define line s = Some d) <-> definition_form s.
Proof.
  split.
  - intros ([n v] & H). destruct (strip_prefix (of_string "#") s) as [r|] eqn:E.
    + apply Script_Proofs.strip_prefix_spec in E as ->. destruct (numeric_definition_refused _ _ _ _ H) as (x & ws & D & _). right. eauto.
    + apply strip_none in E. apply (text_definition_exact _ _ _ _ E) in H as (x & t & D & _). left. eauto.
  - intros [(x & t & D)|(r & x & ws & -> & D)].
    + exists (User x, VStr t). apply text_definition_exact; [|eauto]. destruct D as [(c & r & -> & L & _) ->]. intros (q & X). injection X as -> _. unfold letter in L. lia.
    + destruct (numeric_definition_accepted line _ _ _ D) as (e & H & _). eauto.
Qed.
Section Options.
Context (alnum : N -> bool) (Alnum : alnum_ok alnum).
Lemma alnum_letter c : ascii_letter c -> alnum c = true.
Proof. intros L. apply (proj1 Alnum); [unfold ascii_letter in L; lia|now left]. Qed.
Lemma form_good p : prefix_form alnum p -> good_prefix p.
Proof.
  destruct Alnum as [A1 A2].
  assert (G : forall c, alnum c = true \/ c = 95%N \/ c = 45%N -> prefix_char c).
  { intros c H. unfold prefix_char. destruct H as [H|H].
    - assert (X : (c < 128)%N -> ascii_letter c \/ digit c) by (intros L; now apply A1). unfold ascii_letter, digit in X. splits; [now apply A2|lia..].
    - unfold ws, BoolExpr_Spec.white. cbn. splits; destruct H as [-> | ->]; lia. }
  intros (c & r & -> & L & F). split; [discriminate|]. constructor; [apply G; left; now apply alnum_letter|]. apply (Forall_impl _) with (2 := F). exact G.
Qed.
(** The options are accepted exactly if every prefix is a letter followed by letters, digits, '-' and '_', none
    is both a check prefix and a comment prefix, and every definition is one. *)
Theorem options_accepted line a : (exists o, options_of alnum line a = Some o) <-> acceptable alnum a.
Proof.
  pose proof (fun l => given_spec alnum (a_check a) (of_string "CHECK") ["CHECK"] l alnum_letter eq_refl) as G1.
  pose proof (fun l => given_spec alnum (a_comment a) (of_string "COM,RUN") ["COM"; "RUN"] l alnum_letter eq_refl) as G2.
  pose proof (fun l => given_in alnum (a_check a) (of_string "CHECK") ["CHECK"] l alnum_letter eq_refl) as I1.
  pose proof (fun l => given_in alnum (a_comment a) (of_string "COM,RUN") ["COM"; "RUN"] l alnum_letter eq_refl) as I2.
  unfold options_of, acceptable, check_asked, comment_asked. split.
  - intros (o & H). destruct (prefixes_given alnum (of_string "CHECK") (a_check a)) as [l1|] eqn:E1; [|discriminate]. destruct (prefixes_given alnum (of_string "COM,RUN") (a_comment a)) as [l2|] eqn:E2; [|discriminate].
    destruct (all_some (map (cli_define line) (a_define a))) as [defs|] eqn:E3; [|discriminate]. cbv zeta in H. destruct (validate _ _) eqn:V; [|discriminate].
    pose proof (proj1 (validate_spec _ _) V) as Vs. destruct (enumerated l1) as [N1 _]. destruct (enumerated l2) as [N2 _]. splits.
    + now destruct (proj1 (G1 l1) eq_refl).
    + now destruct (proj1 (G2 l2) eq_refl).
    + intros p P Q. apply (Vs p); [apply N1; now apply (I1 l1)|apply N2; now apply (I2 l2)].
    + intros s I. apply all_some_spec in E3. assert (J : In (cli_define line s) (map Some defs)) by (rewrite <- E3; now apply in_map). apply in_map_iff in J as (d & Ed & _). apply (definition_accepted line). eauto.
  - intros (P1 & P2 & D & Df). pose proof (proj2 (G1 _) (conj eq_refl P1)) as E1. pose proof (proj2 (G2 _) (conj eq_refl P2)) as E2. rewrite E1, E2.
    assert (E3 : exists defs, all_some (map (cli_define line) (a_define a)) = Some defs).
    { clear -Df. induction (a_define a) as [|s l IH]; [now exists []|]. cbn. destruct (proj2 (definition_accepted line s) (Df s (or_introl eq_refl))) as (d & ->). destruct IH as (ds & E); [intros s' I; apply Df; now right|]. rewrite E. now exists (d :: ds). }
    destruct E3 as (defs & E3). rewrite E3. cbv zeta. rewrite (proj2 (validate_spec _ _)); [eauto|]. intros p I J.
    apply (proj1 (proj1 (enumerated _) p)) in I. apply (proj1 (proj1 (enumerated _) p)) in J. apply (D p); [now apply (I1 _ E1)|now apply (I2 _ E2)].
Qed.
(** ... the run is then made with the prefixes asked for, in order and each once, and with the definitions and
    flags that were given.  No prefix has a character that would make the reading of the check file ambiguous. *)
Theorem options_given line a o : options_of alnum line a = Some o ->
  enumerates (check_asked a) (check_prefixes (o_parse o)) /\ enumerates (comment_asked a) (comment_prefixes (o_parse o)) /\
  Forall2 (fun s d => cli_define line s = Some d) (a_define a) (o_defs o) /\
  good_config (o_parse o) /\
  strict_whitespace (o_parse o) = a_strict a /\ match_full_lines (o_parse o) = a_full a /\ allow_unused (o_parse o) = a_unused a /\
  o_ci o = a_ci a /\ o_scoped o = a_scoped a /\ o_allow o = a_empty a /\ o_imp o = a_implicit a.
Proof.
  intros H. pose proof (proj1 (options_accepted line a) (ex_intro _ o H)) as (P1 & P2 & _). unfold options_of in H.
  destruct (prefixes_given alnum (of_string "CHECK") (a_check a)) as [l1|] eqn:E1; [|discriminate]. destruct (prefixes_given alnum (of_string "COM,RUN") (a_comment a)) as [l2|] eqn:E2; [|discriminate].
  destruct (all_some (map (cli_define line) (a_define a))) as [defs|] eqn:E3; [|discriminate]. cbv zeta in H. destruct (validate _ _) eqn:V; [|discriminate]. injection H as <-.
  pose proof (given_in _ _ (of_string "CHECK") ["CHECK"] _ alnum_letter eq_refl E1) as I1. pose proof (given_in _ _ (of_string "COM,RUN") ["COM"; "RUN"] _ alnum_letter eq_refl E2) as I2.
  assert (X1 : enumerates (check_asked a) (dedup_strs (sort_strs l1))) by (destruct (enumerated l1) as [A B]; split; [intros p; rewrite A; apply I1|exact B]).
  assert (X2 : enumerates (comment_asked a) (dedup_strs (sort_strs l2))) by (destruct (enumerated l2) as [A B]; split; [intros p; rewrite A; apply I2|exact B]).
  assert (Ne : forall ds (given : list str), ds <> [] -> exists p, asked ds given p).
  { intros ds given N. destruct given as [|v given].
    - destruct ds as [|d ds]; [easy|]. exists (of_string d). left. split; [easy|]. now left.
    - destruct (split_commas v) as [|p l] eqn:E; [destruct v as [|c v]; [discriminate|]; cbn in E; destruct (N.eqb c 44); [discriminate|]; now destruct (split_commas v)|].
      exists p. right. exists v. split; [now left|]. apply split_commas_spec. rewrite E. now left. }
  cbn [o_parse o_defs o_ci o_scoped o_allow o_imp check_prefixes comment_prefixes strict_whitespace match_full_lines allow_unused]. splits; auto.
  - apply all_some_spec in E3. clear -E3. revert defs E3. induction (a_define a) as [|s l IH]; intros [|d defs] E; try discriminate; constructor; injection E as E E'; auto.
  - unfold good_config. cbn [check_prefixes comment_prefixes]. destruct X1 as [X1 _], X2 as [X2 _]. splits.
    + destruct (Ne ["CHECK"] (a_check a) ltac:(discriminate)) as (p & Hp). intros E. apply X1 in Hp. now rewrite E in Hp.
    + destruct (Ne ["COM"; "RUN"] (a_comment a) ltac:(discriminate)) as (p & Hp). intros E. apply X2 in Hp. now rewrite E in Hp.
    + apply Forall_forall. intros p I. apply form_good, P1. now apply X1.
    + apply Forall_forall. intros p I. apply form_good, P2. now apply X2.
Qed.
(** What a definition gives is what the variable is when the run starts, unless a later one redefines it. *)
Theorem definition_visible line a o before s after x v : options_of alnum line a = Some o ->
  a_define a = before ++ s :: after -> cli_define line s = Some (User x, v) ->
  (forall s' y w, In s' after -> cli_define line s' = Some (y, w) -> y <> User x) ->
  b_get (env_from_config (o_defs o)) (User x) = Val (Some v) /\ b_get (env_from_config (o_defs o)) (Global x) = Val (Some v).
Proof.
  intros H Ea Ed Na. destruct (options_given _ _ _ H) as (_ & _ & F & _). rewrite Ea in F. apply Forall2_app_inv_l in F as (d1 & d2 & F1 & F2 & Eo).
  inversion F2 as [|? d ? d3 Es F3]; subst. rewrite Ed in Es. injection Es as <-.
  assert (User_only : forall s' d', cli_define line s' = Some d' -> exists y, fst d' = User y).
  { intros s' [n w] C. destruct (strip_prefix (of_string "#") s') as [r|] eqn:E.
    - apply Script_Proofs.strip_prefix_spec in E as ->. destruct (numeric_definition_refused _ _ _ _ C) as (y & ws & _ & ->). now exists y.
    - apply strip_none in E. apply (text_definition_exact _ _ _ _ E) in C as (y & t & _ & -> & _). now exists y. }
  assert (S0 : system_of (o_defs o) x = Some v).
  { rewrite Eo. unfold system_of. rewrite fold_left_app. cbn [fold_left fst snd v_text]. set (m := s_insert _ x v). assert (M : m x = Some v) by (unfold m, s_insert; now rewrite (proj2 (str_eqb_eq x x) eq_refl)).
    clearbody m. clear -M F3 Na User_only. revert m M. induction F3 as [|s' d' l l' C F IH]; intros m M; [exact M|]. cbn [fold_left]. apply IH; [intros s0 y w I; apply Na; now right|].
    destruct (User_only _ _ C) as (y & E). destruct d' as [n w]. cbn in E. subst n. cbn. unfold s_insert. destruct (str_eqb y x) eqn:X; [|exact M]. apply str_eqb_eq in X as ->. destruct (Na s' (User x) w (or_introl eq_refl) C eq_refl). }
  cbn. rewrite S0. now split.
Qed.
(** A run that passes was made with acceptable options, and is that of the two files (C75, C76). *)
Theorem command_options E T fuel rounds line a pos text b out : reports (command E T fuel rounds alnum line a pos text b) out ->
  acceptable alnum a /\ exists o, options_of alnum line a = Some o /\ reports (verify E T fuel rounds o pos text b) out.
Proof.
  unfold command. intros R. destruct (options_of alnum line a) as [o|] eqn:Eo; [|destruct R as (t & X & _); discriminate]. split; [apply (options_accepted line); eauto|]. now exists o.
Qed.
End Options.

(** Characters outside ASCII are allowed after the first one of a prefix. *)
Definition ascii_alnum (c : N) : bool := (is_alpha c || is_dec c)%bool.
Theorem prefix_ascii_refuted alnum c : alnum 67%N = true -> alnum c = true -> prefix_ok alnum [67%N; c] = true.
Proof. intros A B. unfold prefix_ok. cbn [existsb]. rewrite A, B. reflexivity. Qed.
Lemma ascii_alnum_ok : alnum_ok ascii_alnum.
Proof.
  split.
  - intros c _. unfold ascii_alnum. rewrite orb_true_iff, dec_spec. unfold is_alpha, ascii_letter, digit. lia.
  - intros c H. unfold ascii_alnum in H. apply orb_true_iff in H. rewrite dec_spec in H. unfold is_alpha, digit in H. unfold ws, BoolExpr_Spec.white. cbn. lia.
Qed.
Definition plain_args (check comment define : list string) : args :=
  mkArgs (map of_string check) (map of_string comment) (map of_string define) [] false false false false false false.
Example options_case :
  (exists o, options_of ascii_alnum 1 (plain_args ["CHECK,X-1"; "B"; "CHECK"] [] ["A=b"; "#N=4"]) = Some o /\
    check_prefixes (o_parse o) = map of_string ["B"; "CHECK"; "X-1"] /\ comment_prefixes (o_parse o) = map of_string ["COM"; "RUN"] /\
    o_defs o = [(User (of_string "A"), VStr (of_string "b")); (N_, VNum (ENum (mkNum None 4)))]) /\
  options_of ascii_alnum 1 (plain_args ["A,,B"] [] []) = None /\ options_of ascii_alnum 1 (plain_args ["A"] ["B,A"] []) = None /\
  options_of ascii_alnum 1 (plain_args ["1A"] [] []) = None /\ options_of ascii_alnum 1 (plain_args ["A B"] [] []) = None.
Proof. split; [eexists; split; [reflexivity|]; repeat split|repeat split]. Qed.
Example command_case : reports
  (command ascii_engine ascii_set 20 20 ascii_alnum 1 (plain_args ["FN"] [] ["NAME=main"; "#N=2 + 3"]) (fun n => (n, 1%Z))
     (of_string "// FN: call [[NAME]]([[#N]])") (of_string "call main(5)")) [mkInfo (mkRange 0 12) 0 0].
Proof. eexists. split; vm_compute; reflexivity. Qed.

Print Assumptions text_definition_exact.
Print Assumptions text_definition_unique.
Print Assumptions global_definition_refuted.
Print Assumptions numeric_definition_accepted.
Print Assumptions numeric_definition_refused.
Print Assumptions numeric_definition_unique.
Print Assumptions numeric_definition_value.
Print Assumptions minus_refuted.
Print Assumptions definition_format_refuted.
Print Assumptions own_definition_refuted.
Print Assumptions options_accepted.
Print Assumptions options_given.
Print Assumptions definition_visible.
Print Assumptions command_options.
Print Assumptions prefix_ascii_refuted.
