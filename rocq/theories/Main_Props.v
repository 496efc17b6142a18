(** C93, C94: which tool a call runs, and how filecheck ends. *)
From Coq Require Import String.
From Verif Require Import Base Text_Model Cursor_Model Check_Model Program_Model Parse_Model Smart_Model Regex_Model PatSet_Model Whole_Model Cli_Model Cli_Spec Main_Model Main_Spec Whole_Spec.
From Verif Require Cli_Props.
Notation length := List.length.
Open Scope string_scope. Open Scope list_scope. Open Scope nat_scope.
Ltac splits := repeat match goal with |- _ /\ _ => split end.

(** ** Names *)
Lemma has_spec x (l : str) : existsb (N.eqb x) l = true <-> In x l.
Proof. rewrite existsb_exists. split; [intros (y & H & E); apply N.eqb_eq in E; now subst|intros H; exists x; split; [exact H|apply N.eqb_refl]]. Qed.
Lemma has_not x (l : str) : existsb (N.eqb x) l = false <-> ~ In x l.
Proof. rewrite <- has_spec. destruct (existsb _ l); split; congruence. Qed.
Lemma after_plain s : ~ In 47%N s -> after_slash s = s.
Proof.
  destruct s as [|c r]; [reflexivity|]. intros H. cbn [after_slash]. rewrite (proj2 (has_not 47%N r)) by (intros X; apply H; now right).
  destruct (N.eqb_spec c 47); [subst; elim H; now left|reflexivity].
Qed.
Lemma after_dir d s : ~ In 47%N s -> after_slash (d ++ of_string "/" ++ s) = s.
Proof.
  intros H. induction d as [|c d IH].
  - change (after_slash (47%N :: s) = s). cbn [after_slash]. now rewrite (proj2 (has_not 47%N s) H), N.eqb_refl.
  - change (after_slash (c :: (d ++ of_string "/" ++ s)) = s). cbn [after_slash]. rewrite (proj2 (has_spec _ _)); [exact IH|]. apply in_app_iff. right. now left.
Qed.
Lemma after_spec s : exists dir, s = dir ++ after_slash s /\ (dir = [] \/ exists d, dir = d ++ of_string "/") /\ ~ In 47%N (after_slash s).
Proof.
  induction s as [|c r IH]; [exists []; cbn; auto|]. cbn [after_slash]. destruct (existsb (N.eqb 47) r) eqn:E.
  - destruct IH as (dir & E1 & D & I). exists (c :: dir). splits; [cbn; now f_equal| |exact I]. right. destruct D as [->|(d & ->)]; [|exists (c :: d); reflexivity].
    exfalso. cbn in E1. rewrite <- E1 in I. apply I. now apply has_spec.
  - apply has_not in E. destruct (N.eqb_spec c 47) as [->|N].
    + exists (of_string "/"). splits; [reflexivity|right; now exists []|exact E].
    + exists []. splits; [reflexivity|now left|]. intros [H|H]; [now elim N|contradiction].
Qed.
Lemma before_last s ext : ~ In 46%N ext -> before_dot (s ++ of_string "." ++ ext) = s.
Proof.
  intros H. induction s as [|c s IH].
  - change (before_dot (46%N :: ext) = []). cbn [before_dot]. now rewrite (proj2 (has_not 46%N ext) H), N.eqb_refl.
  - change (before_dot (c :: (s ++ of_string "." ++ ext)) = c :: s). cbn [before_dot]. rewrite (proj2 (has_spec _ _)); [now f_equal|]. apply in_app_iff. right. now left.
Qed.
Lemma before_spec s : In 46%N s -> exists ext, s = before_dot s ++ of_string "." ++ ext /\ ~ In 46%N ext.
Proof.
  induction s as [|c r IH]; [easy|]. intros H. cbn [before_dot]. destruct (existsb (N.eqb 46) r) eqn:E.
  - destruct IH as (ext & E1 & I); [now apply has_spec|]. exists ext. split; [|exact I]. cbn [app]. now f_equal.
  - apply has_not in E. destruct (N.eqb_spec c 46) as [->|N]; [exists r; split; [reflexivity|exact E]|]. destruct H; [now elim N|contradiction].
Qed.
Lemma stem_spec path name : name <> [] -> (file_stem path = name <-> called path name).
Proof.
  intros NE. unfold file_stem. split.
  - destruct (after_spec path) as (dir & E & D & I). intros H. exists dir, (after_slash path). splits; auto. destruct (after_slash path) as [|c r]; [now elim NE|].
    destruct (existsb (N.eqb 46) r) eqn:X.
    + right. apply has_spec in X. destruct (before_spec r X) as (ext & E1 & I1). exists ext. split; [exact I1|]. subst name. cbn [app]. now f_equal.
    + left. apply has_not in X. subst name. split; [reflexivity|]. intros c' r' E'. now injection E' as <- <-.
  - intros (dir & file & -> & D & I & _ & F). assert (A : after_slash (dir ++ file) = file). { destruct D as [->|(d & ->)]; [now apply after_plain|rewrite <- app_assoc; now apply after_dir]. }
    rewrite A. destruct F as [[-> F]|(ext & X & ->)].
    + destruct name as [|c r]; [easy|]. now rewrite (proj2 (has_not 46%N r) (F _ _ eq_refl)).
    + destruct name as [|c r]; [easy|]. cbn [app]. rewrite (proj2 (has_spec 46%N _)); [now rewrite before_last|]. apply in_app_iff. right. now left.
Qed.
Lemma timing_spec timing : timing_ok timing <-> match timing with Some p => negb (existsb (str_eqb p) (map of_string ["s"; "ms"; "us"; "ns"])) | None => false end = false.
Proof.
  unfold timing_ok. destruct timing as [p|]; [|split; [reflexivity|discriminate]]. rewrite negb_false_iff, existsb_exists. split.
  - intros H. exists p. split; [now apply H|apply str_eqb_refl].
  - intros (q & I & E) p' [= <-]. apply str_eqb_eq in E. now subst.
Qed.
Lemma in_commands w : existsb (str_eqb w) commands = true <-> exists t, w = tool_name t.
Proof.
  rewrite existsb_exists. split.
  - intros (x & I & E). apply str_eqb_eq in E. subst x. destruct I as [<-|[<-|[<-|[]]]]; [exists Main_Model.Lit|exists FileCheck|exists Main_Model.Not]; reflexivity.
  - intros (t & ->). exists (tool_name t). split; [destruct t; cbn; auto|apply str_eqb_refl].
Qed.
Lemma arm_name t : arm (tool_name t) = Some t.
Proof. destruct t; reflexivity. Qed.
Lemma name_not_litcheck t : str_eqb (tool_name t) (of_string "litcheck") = false.
Proof. destruct t; reflexivity. Qed.
Lemma tool_name_inj t t' : tool_name t = tool_name t' -> t = t'.
Proof. destruct t, t'; intros H; try reflexivity; discriminate. Qed.

(** A tool is run exactly if the program is called by the tool's name, or by litcheck with the tool's name as the first word; the
    tool is given all the other words. *)
Theorem tool_exactly timing path words t rest : main timing path words = Runs t rest <->
  timing_ok timing /\ ((called path (tool_name t) /\ rest = words) \/ (called path (of_string "litcheck") /\ words = tool_name t :: rest)).
Proof.
  rewrite timing_spec. unfold main. destruct (match timing with Some p => _ | None => false end); [split; [discriminate|intros [H _]; discriminate]|].
  rewrite <- !stem_spec by (destruct t; discriminate || discriminate). cbn zeta. unfold top. set (s := file_stem path). cbn [existsb]. split.
  - intros H. split; [reflexivity|]. destruct (str_eqb s (of_string "litcheck")) eqn:L; cbn [orb] in H.
    + apply str_eqb_eq in L. rewrite L in H. right. split; [exact L|]. change (str_eqb (of_string "litcheck") (of_string "litcheck")) with true in H. cbn beta iota in H. change (str_eqb (of_string "litcheck") (of_string "litcheck")) with true in H. cbn beta iota in H.
      destruct words as [|w r]; [discriminate|]. cbn [explicit] in H. destruct (existsb (str_eqb w) commands) eqn:C.
      * apply in_commands in C as (t' & ->). rewrite arm_name in H. now injection H as -> ->.
      * destruct (is_help w); discriminate.
    + destruct (existsb (str_eqb s) commands) eqn:C.
      * rewrite L in H. apply in_commands in C as (t' & ->). rewrite arm_name in H. injection H as -> ->. now left.
      * destruct (str_eqb s (of_string "help")); discriminate.
  - intros [_ [[E ->]|[E ->]]]; rewrite E.
    + rewrite name_not_litcheck. cbn [orb]. rewrite (proj2 (in_commands (tool_name t))) by eauto. rewrite name_not_litcheck, arm_name. reflexivity.
    + change (str_eqb (of_string "litcheck") (of_string "litcheck")) with true. cbn [orb]. cbn beta iota. change (str_eqb (of_string "litcheck") (of_string "litcheck")) with true. cbn beta iota. cbn [explicit]. rewrite (proj2 (in_commands (tool_name t))) by eauto. now rewrite arm_name.
Qed.
(** So a tool called by its own name does what litcheck does with its name as the first word. *)
Theorem called_either_way timing path path' words t : called path (tool_name t) -> called path' (of_string "litcheck") ->
  main timing path words = main timing path' (tool_name t :: words).
Proof.
  intros C C'. pose proof (proj2 (tool_exactly timing path words t words)) as A. pose proof (proj2 (tool_exactly timing path' (tool_name t :: words) t words)) as B.
  destruct (match timing with Some p => negb (existsb (str_eqb p) (map of_string ["s"; "ms"; "us"; "ns"])) | None => false end) eqn:E.
  - unfold main. now rewrite E.
  - apply timing_spec in E. rewrite A, B by auto. reflexivity.
Qed.
(** Any other call ends the program, with 2 unless help was asked for; it does not abort. *)
Theorem other_calls timing path words : (exists t rest, main timing path words = Runs t rest) \/ main timing path words = Ends 2 \/
  (main timing path words = Ends 0 /\ (called path (of_string "help") \/ (called path (of_string "litcheck") /\ exists w r, words = w :: r /\ In w (map of_string ["help"; "--help"; "-h"])))).
Proof.
  rewrite <- !stem_spec by discriminate. unfold main. destruct (match timing with Some p => _ | None => false end); [auto|]. cbn zeta. unfold top.
  set (s := file_stem path). destruct (existsb (str_eqb s) (of_string "litcheck" :: commands)) eqn:X.
  - destruct (str_eqb s (of_string "litcheck")) eqn:L.
    + apply str_eqb_eq in L. destruct words as [|w r]; cbn [explicit]; [auto|]. destruct (existsb (str_eqb w) commands) eqn:C.
      * apply in_commands in C as (t & ->). rewrite arm_name. eauto.
      * destruct (is_help w) eqn:Hp; [|auto]. right. right. split; [reflexivity|]. right. split; [exact L|]. exists w, r. split; [reflexivity|].
        unfold is_help in Hp. apply existsb_exists in Hp as (x & I & E). apply str_eqb_eq in E. now subst.
    + cbn [existsb] in X. rewrite L in X. cbn [orb] in X. apply in_commands in X as (t & ->). rewrite arm_name. eauto.
  - destruct (str_eqb s (of_string "help")) eqn:L; [|auto]. apply str_eqb_eq in L. auto.
Qed.
(** The name under which the documentation has it installed does not work. *)
Theorem filecheck_name_refuted timing path words : called path (of_string "FileCheck") -> main timing path words = Ends 2.
Proof.
  rewrite <- stem_spec by discriminate. intros H. unfold main. destruct (match timing with Some p => _ | None => false end); [reflexivity|]. cbn zeta. rewrite H. reflexivity.
Qed.
(** lit does not run tests unless told so, although that is called the default. *)
Theorem lit_default_refuted w r : ~ In w (map of_string ["run"; "show-suites"; "show-tests"; "help"; "--help"; "-h"]) -> lit_words (w :: r) = LitUsage.
Proof.
  intros H. assert (N : forall x, In x ["run"; "show-suites"; "show-tests"; "help"; "--help"; "-h"] -> str_eqb w (of_string x) = false).
  { intros x I. destruct (str_eqb w (of_string x)) eqn:E; [|reflexivity]. apply str_eqb_eq in E. elim H. rewrite E. now apply in_map. }
  cbn [lit_words]. rewrite !N by (cbn; auto 10). unfold is_help. cbn [map existsb]. rewrite !N by (cbn; auto 10). reflexivity.
Qed.
Example ex_called : called (of_string "/usr/local/bin/FileCheck") (of_string "FileCheck") /\ called (of_string "lit.exe") (of_string "lit") /\
  main None (of_string "/usr/local/bin/lit") [of_string "run"; of_string "tests"] = Runs Main_Model.Lit [of_string "run"; of_string "tests"] /\
  main None (of_string "litcheck") [of_string "not"; of_string "a"] = Runs Main_Model.Not [of_string "a"].
Proof. splits; try reflexivity; apply stem_spec; discriminate || reflexivity. Qed.

(** ** How filecheck ends *)
Section Exit.
Context (alnum : N -> bool) (Alnum : alnum_ok alnum) (line : Z) (verify : options -> str -> bytes -> res test_result) (read : str -> option str).
Lemma values_spec a : values_ok alnum line a = true <-> well_formed alnum a.
Proof.
  pose proof (fun l => Cli_Props.given_spec alnum (a_check a) (of_string "CHECK") ["CHECK"] l (Cli_Props.alnum_letter alnum Alnum) eq_refl) as G1.
  pose proof (fun l => Cli_Props.given_spec alnum (a_comment a) (of_string "COM,RUN") ["COM"; "RUN"] l (Cli_Props.alnum_letter alnum Alnum) eq_refl) as G2.
  unfold values_ok, well_formed, check_asked, comment_asked. split.
  - intros H. destruct (prefixes_given alnum (of_string "CHECK") (a_check a)) as [l1|] eqn:E1; [|discriminate]. destruct (prefixes_given alnum (of_string "COM,RUN") (a_comment a)) as [l2|] eqn:E2; [|discriminate].
    destruct (all_some (map (cli_define line) (a_define a))) as [defs|] eqn:E3; [|discriminate]. splits.
    + now destruct (proj1 (G1 l1) eq_refl).
    + now destruct (proj1 (G2 l2) eq_refl).
    + intros s I. apply Cli_Props.all_some_spec in E3. assert (J : In (cli_define line s) (map Some defs)) by (rewrite <- E3; now apply in_map). apply in_map_iff in J as (d & Ed & _). apply (Cli_Props.definition_accepted line). eauto.
  - intros (P1 & P2 & Df). rewrite (proj2 (G1 _) (conj eq_refl P1)), (proj2 (G2 _) (conj eq_refl P2)).
    assert (E3 : exists defs, all_some (map (cli_define line) (a_define a)) = Some defs).
    { clear -Df. induction (a_define a) as [|s l IH]; [now exists []|]. cbn. destruct (proj2 (Cli_Props.definition_accepted line s) (Df s (or_introl eq_refl))) as (d & ->). destruct IH as (ds & E); [intros s' I; apply Df; now right|]. rewrite E. now exists (d :: ds). }
    destruct E3 as (defs & ->). reflexivity.
Qed.
Lemma in_force_spec env i a d : in_force env i a d <-> (env = NoOpts /\ a = i_args i /\ d = i_dump_help i) \/ exists e, env = Opts e d /\ a = update (i_args i) e.
Proof.
  split.
  - intros [->|e d' a' -> H1 H2 H3 H4 H5 H6 H7 H8 H9 H10 H11 H12]; [auto|]. right. exists e. split; [reflexivity|]. unfold update, or_given.
    destruct a' as [c1 c2 df im b1 b2 b3 b4 b5 b6]. cbn in *. subst.
    assert (X : df = match a_define e with [] => a_define (i_args i) | _ => a_define e end) by (destruct (a_define e); auto; apply H4; discriminate).
    assert (Y : im = match a_implicit e with [] => a_implicit (i_args i) | _ => a_implicit e end) by (destruct (a_implicit e); auto; apply H6; discriminate).
    now rewrite X, Y.
  - intros [(-> & -> & ->)|(e & -> & ->)]; [now constructor|]. apply (f_opts _ _ e d); try reflexivity; unfold update, or_given; cbn; intros H; destruct (a_define e), (a_implicit e); try reflexivity; try discriminate; now elim H.
Qed.
Lemma exit_understood env i : filecheck_exit verify alnum line read env i = 2 <-> ~ understood alnum env i.
Proof.
  unfold filecheck_exit, understood. assert (C : forall a d, checked verify alnum line a d read i <> 2).
  { intros a d. unfold checked. destruct (options_of _ _ _); [|discriminate]. destruct d; [discriminate|]. destruct (read _); [|discriminate]. destruct (read _); [|discriminate]. destruct (verify _ _ _); try discriminate. destruct (into_result _); discriminate. }
  rewrite <- values_spec. destruct (values_ok alnum line (i_args i)) eqn:V; cbn [negb]; [|split; [intros _ (H & _); discriminate|reflexivity]].
  destruct (str_eqb (i_match i) (of_string "help")) eqn:Hp; [apply str_eqb_eq in Hp; split; [intros _ (_ & H & _); contradiction|reflexivity]|].
  assert (NH : i_match i <> of_string "help") by (intros E; rewrite E, str_eqb_refl in Hp; discriminate).
  destruct env as [| |e d].
  - split; [intros H; now elim (C _ _ H)|]. intros H. elim H. splits; auto; discriminate.
  - split; [intros _ (_ & _ & H & _); now elim H|reflexivity].
  - destruct (values_ok alnum line e) eqn:W.
    + split; [intros H; now elim (C _ _ H)|]. intros H. elim H. splits; auto; [discriminate|]. intros e' d' E. injection E as <- <-. now apply values_spec.
    + split; [|reflexivity]. intros _ (_ & _ & _ & H). specialize (H e d eq_refl). apply values_spec in H. congruence.
Qed.
Lemma exit_checked env i : understood alnum env i -> exists a d, in_force env i a d /\ filecheck_exit verify alnum line read env i = checked verify alnum line a d read i /\
  forall a' d', in_force env i a' d' -> a' = a /\ d' = d.
Proof.
  intros (W & H & NR & E). unfold filecheck_exit. rewrite (proj2 (values_spec _) W). cbn [negb].
  destruct (str_eqb (i_match i) (of_string "help")) eqn:Hp; [apply str_eqb_eq in Hp; contradiction|]. destruct env as [| |e d]; [|now elim NR|].
  - exists (i_args i), (i_dump_help i). splits; [now constructor|reflexivity|]. intros a' d' F. apply in_force_spec in F as [(_ & -> & ->)|(e & F & _)]; [auto|discriminate].
  - exists (update (i_args i) e), d. splits; [apply in_force_spec; eauto|now rewrite (proj2 (values_spec _) (E _ _ eq_refl))|]. intros a' d' F. apply in_force_spec in F as [(F & _)|(e' & F & ->)]; [discriminate|]. injection F as -> ->. auto.
Qed.
(** filecheck ends with 2 exactly if the call is not understood.  Otherwise some options are in force, and it ends with 0
    exactly if they are acceptable and either they ask for the help about dumps or both files can be read and the check passes;
    with 101 exactly if the check aborts, and in every other case with 1. *)
Theorem exit_status env i : let code := filecheck_exit verify alnum line read env i in
  (code = 2 <-> ~ understood alnum env i) /\ (code = 0 \/ code = 1 \/ code = 2 \/ code = 101) /\
  (understood alnum env i -> exists a d, in_force env i a d /\
    (code = 0 <-> exists o, options_of alnum line a = Some o /\
       (d = true \/ exists checks input out, read (i_match i) = Some checks /\ read (i_input i) = Some input /\ reports (verify o checks input) out)) /\
    (code = 101 <-> exists o checks input, options_of alnum line a = Some o /\ d = false /\ read (i_match i) = Some checks /\ read (i_input i) = Some input /\ verify o checks input = Panic)).
Proof.
  intros code. split; [apply exit_understood|]. split.
  - destruct (Nat.eq_dec code 2) as [E|E]; [auto|]. assert (U : ~ ~ understood alnum env i) by (intros X; apply E, exit_understood, X).
    assert (G : forall a d, let c := checked verify alnum line a d read i in c = 0 \/ c = 1 \/ c = 101).
    { intros a d. unfold checked. cbn zeta. destruct (options_of _ _ _); [|auto]. destruct d; [auto|]. destruct (read _); [|auto]. destruct (read _); [|auto]. destruct (verify _ _ _); auto. destruct (into_result _); auto. }
    unfold code, filecheck_exit. destruct (negb _); [auto|]. destruct (str_eqb _ _); [auto|]. destruct env as [| |e d]; [|auto|destruct (values_ok _ _ _); [|auto]];
      [destruct (G (i_args i) (i_dump_help i)) as [H|[H|H]]|destruct (G (update (i_args i) e) d) as [H|[H|H]]]; auto.
  - intros U. destruct (exit_checked env i U) as (a & d & F & E & _). exists a, d. split; [exact F|]. unfold code. rewrite E. unfold checked, reports.
    destruct (options_of alnum line a) as [o|]; [|split; split; [discriminate|intros (o & H & _); discriminate|discriminate|intros (o & ? & ? & H & _); discriminate]].
    destruct d; [split; split; [intros _; exists o; auto|reflexivity|discriminate|intros (o' & c & p & _ & H & _); discriminate]|].
    destruct (read (i_match i)) as [c|]; [|split; split; [discriminate|intros (o' & _ & [H|(c & p & out & H & _)]); discriminate|discriminate|intros (o' & c & p & _ & _ & H & _); discriminate]].
    destruct (read (i_input i)) as [p|]; [|split; split; [discriminate|intros (o' & _ & [H|(c' & p & out & _ & H & _)]); discriminate|discriminate|intros (o' & c' & p & _ & _ & _ & H & _); discriminate]].
    destruct (verify o c p) as [t| |] eqn:V.
    + destruct (into_result t) as [out|] eqn:R; (split; split; try discriminate).
      * intros _. exists o. split; [reflexivity|]. right. exists c, p, out. splits; auto. exists t. auto.
      * reflexivity.
      * intros (o' & c' & p' & [= <-] & _ & [= <-] & [= <-] & H). congruence.
      * intros (o' & [= <-] & [H|(c' & p' & out & [= <-] & [= <-] & t' & H & X)]); congruence.
      * intros (o' & c' & p' & [= <-] & _ & [= <-] & [= <-] & H). congruence.
    + split; split; try discriminate.
      * intros (o' & [= <-] & [H|(c' & p' & out & [= <-] & [= <-] & t' & H & X)]); congruence.
      * intros (o' & c' & p' & [= <-] & _ & [= <-] & [= <-] & H). congruence.
    + split; split; try discriminate; try reflexivity.
      * intros (o' & [= <-] & [H|(c' & p' & out & [= <-] & [= <-] & t' & H & X)]); congruence.
      * intros _. exists o, c, p. auto.
Qed.
(** FILECHECK_OPTS alone is as good as the command line. *)
Theorem opts_alone e d m p : let nothing := mkArgs [] [] [] [] false false false false false false in
  filecheck_exit verify alnum line read (Opts e d) (mkInvocation nothing false m p) = filecheck_exit verify alnum line read NoOpts (mkInvocation e d m p).
Proof.
  cbn zeta. set (nothing := mkArgs [] [] [] [] false false false false false false). unfold filecheck_exit. cbn [i_args i_match i_dump_help].
  assert (V : values_ok alnum line nothing = true).
  { apply values_spec. split; [|split; [|intros s []]]; intros q [[_ H]|(v & [] & _)]; cbn in H.
    - destruct H as [<-|[]]. exists 67%N, [72; 69; 67; 75]%N. splits; [reflexivity|unfold ascii_letter; lia|]. repeat (apply Forall_cons; [left|]); try apply Forall_nil; apply (Cli_Props.alnum_letter alnum Alnum); unfold ascii_letter; lia.
    - destruct H as [<-|[<-|[]]]; [exists 67%N, [79; 77]%N|exists 82%N, [85; 78]%N]; (splits; [reflexivity|unfold ascii_letter; lia|]; repeat (apply Forall_cons; [left|]); try apply Forall_nil; apply (Cli_Props.alnum_letter alnum Alnum); unfold ascii_letter; lia). }
  rewrite V. cbn [negb]. assert (U : update nothing e = e) by (unfold update, or_given; destruct e as [c1 c2 df im b1 b2 b3 b4 b5 b6]; cbn; now destruct df, im).
  rewrite U. destruct (values_ok alnum line e); cbn [negb]; [|now destruct (str_eqb m _)]. destruct (str_eqb m _); [reflexivity|]. reflexivity.
Qed.
End Exit.
(** Options of the command line are lost as soon as FILECHECK_OPTS is set, be it to nothing: a check that fails with
    --ignore-case then passes. *)
Theorem opts_lost_refuted : let nothing := mkArgs [] [] [] [] false false false false false false in let folded := mkArgs [] [] [] [] false false false true false false in
  let read f := if str_eqb f (of_string "checks") then Some (of_string "CHECK-NOT: error") else Some (of_string "Error") in
  let run := filecheck_exit (fun o => verify ascii_engine ascii_set 20 20 o (fun n => (n, 1%Z))) Cli_Props.ascii_alnum 1 read in
  run NoOpts (mkInvocation folded false (of_string "checks") (of_string "input")) = 1 /\
  run (Opts nothing false) (mkInvocation folded false (of_string "checks") (of_string "input")) = 0.
Proof. cbv zeta. split; vm_compute; reflexivity. Qed.
Example ex_understood : understood Cli_Props.ascii_alnum NoOpts (mkInvocation (Cli_Props.plain_args ["FN"] [] ["NAME=main"]) false (of_string "checks") (of_string "-")).
Proof.
  split; [|splits; discriminate]. apply (values_spec Cli_Props.ascii_alnum Cli_Props.ascii_alnum_ok 1). reflexivity.
Qed.

Print Assumptions tool_exactly.
Print Assumptions called_either_way.
Print Assumptions other_calls.
Print Assumptions filecheck_name_refuted.
Print Assumptions lit_default_refuted.
Print Assumptions exit_status.
Print Assumptions opts_alone.
Print Assumptions opts_lost_refuted.
