(** C55-C59: which tests are found, where they are taken from, and under which configuration. *)
From Coq Require Import String Permutation.
From Verif Require Import Base Text_Model Cursor_Model Map_Model Tree_Model Tree_Spec Tree_Props Config_Model Disc_Model Disc_Spec Disc_Proofs.
Notation length := List.length.
Ltac splits := repeat match goal with |- _ /\ _ => split end.

(** ** C55 *)
(** Naming directories that have a suite configuration finds exactly the files that the suite around
    them accepts, each once, with its own path, in whatever order the directories are named, however
    they are nested, and however often they are repeated. *)
Theorem C55_directories_partial w args fuel :
  tidy (w_root w) -> is_dir w [] = true -> in_place w -> height (w_root w) < fuel ->
  (forall d, In d args -> suite_dir w d /\ exists x, d = w_cwd w ++ x) ->
  exists st, load w fuel args = Val st /\ NoDup (tests_of st) /\
  forall t, In t (tests_of st) <-> exists d, In d args /\ test_below w d t.
Proof.
  intros T RD IP HF A. destruct (load_all_after w (load_from_path w fuel) args) with (st := empty_registry) as (st & E & I & A1 & B1).
  - intros d st0 J I0. destruct (A d J) as [S (x & X)]. pose proof S as (l & e & AD & _). apply (load_suite w T RD IP fuel d st0 (EDir l)); auto.
    + destruct d as [|y d]; [cbn in AD; injection AD as EQ; rewrite EQ in HF; exact HF|]. apply height_at in AD; [lia|easy].
    + apply starts_with_spec. eauto.
  - apply Inv_empty.
  - exists st. split; auto.
    assert (TS : forall q ts, In (q, ts) (r_tests st) <-> dget q (r_tests st) = Some ts) by (intros q ts; symmetry; apply dget_In; apply (v_nodup _ st I)).
    assert (SUI : forall q, In q (map fst (r_tests st)) -> suite_dir w q).
    { intros q J. apply in_map_iff in J as ([q' ts] & EQ & J). cbn in EQ. subst q'. apply TS in J. assert (L : loaded st q) by (apply (v_tests _ st I); congruence). unfold loaded in L. destruct (dget q (r_suites st)) as [su|] eqn:D; [|easy]. apply (v_suites _ st I q su D). }
    assert (BEL : forall q ts, In (q, ts) (r_tests st) -> ts = tests_at w q /\ exists d x, In d args /\ q = d ++ x).
    { intros q ts J. assert (S : suite_dir w q) by (apply SUI; apply in_map_iff; now exists (q, ts)). apply TS in J.
      destruct (existsb (fun d => starts_with q d) args) eqn:X.
      - apply existsb_exists in X as (d & D & X). apply starts_with_spec in X as (x & X). split; [|eauto]. subst q. rewrite (A1 d x D S) in J. congruence.
      - rewrite B1 in J; [easy|]. intros d x D ->. assert (existsb (fun d0 => starts_with (d ++ x) d0) args = true); [|congruence]. apply existsb_exists. exists d. split; auto. apply starts_with_spec. eauto. }
    split.
    + unfold tests_of. apply NoDup_flat_map.
      * apply (NoDup_map_inv fst), (v_nodup _ st I).
      * intros [q ts] J. apply BEL in J as [-> _]. now apply tests_at_nodup.
      * intros [q ts] [q' ts'] t J J' B B'. pose proof (SUI q) as S. pose proof (SUI q') as S'. assert (IQ : In q (map fst (r_tests st))) by (apply in_map_iff; now exists (q, ts)). assert (IQ' : In q' (map fst (r_tests st))) by (apply in_map_iff; now exists (q', ts')).
        apply BEL in J as [-> _], J' as [-> _]. cbn in B, B'. apply tests_at_spec in B as (r & _ & _ & _ & ->); auto. apply tests_at_spec in B' as (r' & _ & _ & _ & EQ); auto. injection EQ as -> _ _ _. reflexivity.
    + intros t. unfold tests_of. rewrite in_flat_map. split.
      * intros ([q ts] & J & B). assert (S : suite_dir w q) by (apply SUI; apply in_map_iff; now exists (q, ts)). apply BEL in J as [-> (d & x & D & ->)]. cbn in B. apply tests_at_spec in B; auto. exists d. split; auto. destruct B as (rel & B). exists x, rel. exact B.
      * intros (d & D & x & rel & B1' & B2 & B3 & B4). assert (S : suite_dir w (d ++ x)) by apply B2. exists (d ++ x, tests_at w (d ++ x)). split; [apply TS; now apply A1|]. cbn. apply tests_at_spec; auto. exists rel. auto.
Qed.
(** consequently the order and the repetition of such arguments do not matter *)
Corollary C55_order w args args' fuel :
  tidy (w_root w) -> is_dir w [] = true -> in_place w -> height (w_root w) < fuel ->
  (forall d, In d args -> suite_dir w d /\ exists x, d = w_cwd w ++ x) -> (forall d, In d args <-> In d args') ->
  exists st st', load w fuel args = Val st /\ load w fuel args' = Val st' /\ Permutation (tests_of st) (tests_of st').
Proof.
  intros T RD IP HF A E. destruct (C55_directories_partial w args fuel T RD IP HF A) as (st & L & N & H).
  destruct (C55_directories_partial w args' fuel T RD IP HF) as (st' & L' & N' & H'). { intros d D. apply A. now apply E. }
  exists st, st'. splits; auto. apply NoDup_Permutation; auto. intros t. rewrite H, H'. split; intros (d & D & B); exists d; (split; [now apply E|auto]).
Qed.
(** a suite that names no patterns has no tests, although all text files are documented to be tests by
    default *)
Theorem C55_no_patterns_refuted w args fuel :
  tidy (w_root w) -> is_dir w [] = true -> in_place w -> height (w_root w) < fuel ->
  (forall d, In d args -> suite_dir w d /\ exists x, d = w_cwd w ++ x) ->
  (forall d, cf_patterns (suite_config w d) = []) -> exists st, load w fuel args = Val st /\ tests_of st = [].
Proof.
  intros T RD IP HF A NP. destruct (C55_directories_partial w args fuel T RD IP HF A) as (st & L & _ & H). exists st. split; auto.
  destruct (tests_of st) as [|t l]; auto. exfalso. destruct (proj1 (H t)) as (d & _ & x & rel & _ & _ & (_ & (g & G & _) & _) & _); [now left|]. rewrite NP in G. easy.
Qed.

(** ** C58, C59, C56: one file *)
Section File.
Context (w : world).
Notation at_w := (at_ (w_root w)).
Hypothesis T : tidy (w_root w).
Hypothesis RD : is_dir w [] = true.
Hypothesis RL : readable w.

Lemma local_search p : at_w p <> None -> (at_w p = Some EFile -> last p [] <> LOCAL) ->
  exists o, search_name w p LOCAL = Val o /\
  match o with Some f => exists cfg, w_local w f = Some cfg /\ local_file w p = Some cfg | None => local_file w p = None end.
Proof.
  intros E NL. unfold search_name, local_file. destruct (at_w p) as [[|l]|] eqn:A; [|..|easy].
  - assert (X : str_eqb (last p []) LOCAL = false) by (apply str_eqb_neq; auto). rewrite X. exists None. auto.
  - destruct (lookup LOCAL l) as [[|l']|] eqn:LL; [|now exists None|now exists None]. exists (Some (p ++ [LOCAL])). split; auto.
    pose proof (RL p l A LL) as R. destruct (w_local w (p ++ [LOCAL])) as [cfg|]; [eauto|easy].
Qed.
Lemma descend_ok su : forall rest p c h cache, cached w h cache -> at_w (p ++ rest) <> None -> (at_w (p ++ rest) = Some EFile -> last rest [] <> LOCAL) ->
  exists h' cache', descend w su p rest c cache = Val (fold_left (overridden w (su_dir su)) (map (fun n => p ++ firstn n rest) (seq 1 (length rest))) c, p ++ rest, cache') /\ cached w h' cache'.
Proof.
  induction rest as [|x rest IH]; intros p c h cache C E NL; cbn [descend length seq map fold_left firstn].
  - rewrite app_nil_r. eauto.
  - assert (AP : p ++ x :: rest = (p ++ [x]) ++ rest) by now rewrite <- app_assoc.
    destruct (local_search (p ++ [x])) as (o & SN & SO).
    { intros X. rewrite AP, at_app, X in E. easy. }
    { intros X. rewrite AP, at_app, X in NL, E. rewrite last_last. destruct rest; [apply NL; reflexivity|easy]. }
    assert (SEQ : forall c0, fold_left (overridden w (su_dir su)) (map (fun n => p ++ firstn n (x :: rest)) (seq 2 (length rest))) c0 = fold_left (overridden w (su_dir su)) (map (fun n => (p ++ [x]) ++ firstn n rest) (seq 1 (length rest))) c0).
    { intros c0. f_equal. rewrite <- seq_shift, map_map. apply List.map_ext. intros n. cbn [firstn]. now rewrite <- app_assoc. }
    assert (NL' : at_w ((p ++ [x]) ++ rest) = Some EFile -> last rest [] <> LOCAL).
    { intros X. rewrite <- AP in X. specialize (NL X). destruct rest; [|exact NL]. cbn. intros Z. unfold LOCAL in Z. discriminate Z. }
    assert (E' : at_w ((p ++ [x]) ++ rest) <> None) by now rewrite <- AP.
    rewrite SN. cbn [bind]. rewrite SEQ, AP. destruct o as [f|].
    + destruct SO as (cfg & W & LF). rewrite W. assert (X : at_w (p ++ [x]) <> None) by (intros X; now rewrite at_app, X in E'). destruct (cached_insert w RD h cache (p ++ [x]) (w_local_defaults w (su_dir su) (p ++ [x]) (inherit cfg c)) C X) as (cache1 & E1 & C1).
      rewrite E1. cbn [bind]. destruct (IH (p ++ [x]) (w_local_defaults w (su_dir su) (p ++ [x]) (inherit cfg c)) _ cache1 C1 E' NL') as (h' & cache' & D & C'). rewrite D. exists h', cache'. split; auto. f_equal. f_equal. f_equal. f_equal. unfold overridden. now rewrite LF.
    + destruct (IH (p ++ [x]) c h cache C E' NL') as (h' & cache' & D & C'). rewrite D. exists h', cache'. split; auto. f_equal. f_equal. f_equal. f_equal. unfold overridden. now rewrite SO.
Qed.
Lemma cached_empty_get {V} p : cache_get (V := V) new_tree p = Val None.
Proof. reflexivity. Qed.
Lemma cached_empty_nearest {V} p : cache_nearest (V := V) new_tree p = Val None.
Proof. reflexivity. Qed.
(** C58: in a suite whose local configuration has not been asked for before, the configuration of a
    file or directory is the effective one *)
Theorem C58_local_config_partial su rel :
  su_source su = su_dir su -> su_config su = suite_config w (su_dir su) -> at_w (su_dir su ++ rel) <> None ->
  (at_w (su_dir su ++ rel) = Some EFile -> last rel [] <> LOCAL) ->
  exists cache, get_local_config w su rel new_tree = Val (effective w (su_dir su) rel, cache).
Proof.
  intros S C E NL. unfold get_local_config. rewrite cached_empty_get, cached_empty_nearest. cbn [bind]. rewrite S, C.
  destruct (descend_ok su rel (su_dir su) (suite_config w (su_dir su)) [] new_tree (cached_nil w) E NL) as (h & cache & D & CC). rewrite D. cbn [bind].
  destruct (cached_insert w RD h cache (su_dir su ++ rel) (effective w (su_dir su) rel) CC E) as (cache' & I & _). unfold effective in I at 1. rewrite I. cbn [bind]. exists cache'. reflexivity.
Qed.

Hypothesis IP : in_place w.
Lemma ancestors_down (p : dpath) k : map (fun n => firstn n p) (rev (seq 0 (S k))) = firstn k p :: map (fun n => firstn n p) (rev (seq 0 k)).
Proof. rewrite seq_S, rev_app_distr. reflexivity. Qed.
Lemma search_up d x : suite_dir w d -> at_w (d ++ x) <> None -> is_dir w (d ++ x) = true -> (forall a b, x = a ++ b -> a <> [] -> ~ suite_dir w (d ++ a)) -> (exists y, d = w_cwd w ++ y) ->
  forall k, length d <= k -> k <= length (d ++ x) ->
  search_ancestors w (d ++ x) (map (fun n => firstn n (d ++ x)) (rev (seq 0 (S k)))) empty_registry =
  do (su, st) <- load_without_cache w d empty_registry; Val (Some su, st).
Proof.
  intros SD E DX NS (y & CW). induction k as [|k IH]; intros K1 K2.
  - destruct d; [|cbn in K1; lia]. rewrite ancestors_down. cbn [firstn search_ancestors]. rewrite (suite_found w IP [] SD). cbn [bind].
    unfold load_without_cache. destruct (suite_file_at w IP [] SD) as (_ & sf & SF & SS). rewrite SF, SS, RD. cbn [negb]. destruct (insert_or_panic _ _ _ _); cbn [bind]; auto. destruct (insert_or_panic _ _ _ _); cbn [bind]; auto.
  - rewrite ancestors_down. cbn [search_ancestors]. destruct (Nat.eq_dec (length d) (S k)) as [L|L].
    + assert (F : firstn (S k) (d ++ x) = d) by (rewrite <- L, firstn_app, Nat.sub_diag, firstn_all, firstn_O, app_nil_r; auto). rewrite F. rewrite (suite_found w IP d SD). cbn [bind].
      unfold load_without_cache. destruct (suite_file_at w IP d SD) as (_ & sf & SF & SS). rewrite SF, SS, (suite_is_dir w d SD). cbn [negb]. destruct (insert_or_panic _ _ _ _); cbn [bind]; auto. destruct (insert_or_panic _ _ _ _); cbn [bind]; auto. cbn [su_source]. assert (SW : starts_with (d ++ x) d = true) by (apply starts_with_spec; eauto). now rewrite SW.
    + assert (F : firstn (S k) (d ++ x) = d ++ firstn (S k - length d) x) by (rewrite firstn_app, firstn_all2 by lia; reflexivity). rewrite F. set (a := firstn (S k - length d) x) in *.
      assert (LA : length a = S k - length d) by (unfold a; rewrite firstn_length; rewrite app_length in K2; lia).
      assert (AX : x = a ++ skipn (S k - length d) x) by (unfold a; now rewrite firstn_skipn).
      assert (NA : ~ suite_dir w (d ++ a)) by (apply (NS a _ AX); intros Z; rewrite Z in LA; cbn [List.length] in LA; lia).
      assert (DA : exists l, at_w (d ++ a) = Some (EDir l)).
      { rewrite AX in DX. unfold is_dir in DX. rewrite app_assoc, at_app in DX. destruct (at_w (d ++ a)) as [[|l]|]; [|eauto|easy]. now destruct (skipn (S k - length d) x). }
      destruct DA as (l & DA). unfold search_name. rewrite DA. assert (LS : lookup SUITE l = None) by (destruct (lookup SUITE l) as [e|] eqn:LL; auto; exfalso; apply NA; exists l, e; auto). rewrite LS. cbn [bind].
      assert (NC : dpath_eqb (d ++ a) (w_cwd w) = false). { apply dpath_eqb_neq. intros Z. apply (f_equal (@List.length _)) in Z. rewrite app_length in Z. pose proof (f_equal (@List.length _) CW) as LC. rewrite app_length in LC. unfold dpath in *. lia. }
      rewrite NC. apply IH; lia.
Qed.
(** C56, C59: naming one file runs it in the innermost suite around it, under the effective
    configuration, if that accepts it *)
Theorem C56_file_partial d rel fuel : 0 < fuel ->
  at_w (d ++ rel) = Some EFile -> innermost w d rel -> (exists y, d = w_cwd w ++ y) -> last rel [] <> LOCAL ->
  exists st, load w fuel [d ++ rel] = Val st /\ length (tests_of st) <= 1 /\
  forall t, In t (tests_of st) <-> accepts w (effective w d rel) rel /\ t = mkTest d rel (d ++ rel) (effective w d rel).
Proof.
  intros HF F (SD & R & IM) CW NL. destruct fuel as [|fuel]; [lia|]. unfold load. cbn [load_all load_from_path]. rewrite F.
  assert (SW : starts_with (d ++ rel) (w_cwd w) = true) by (destruct CW as (y & ->); apply starts_with_spec; exists (y ++ rel); now rewrite app_assoc). rewrite SW. cbn [negb].
  unfold find_nearest_suite. assert (ND : is_dir w (d ++ rel) = false) by (unfold is_dir; now rewrite F). rewrite ND. unfold find_containing. cbn [r_cache empty_registry]. rewrite cached_empty_nearest. cbn [bind]. rewrite ND.
  destruct (exists_last R) as (x & z & ->). assert (RM : removelast (d ++ x ++ [z]) = d ++ x) by (rewrite app_assoc; apply removelast_last). rewrite RM.
  assert (DX : exists l, at_w (d ++ x) = Some (EDir l)).
  { rewrite app_assoc, at_app in F. destruct (at_w (d ++ x)) as [[|l]|]; [easy|eauto|easy]. }
  destruct DX as (l & DX). unfold ancestors. rewrite (search_up d x SD); auto; try congruence; try lia; [|unfold is_dir; now rewrite DX| |rewrite app_length; lia].
  2:{ intros a b E A. apply (IM a (b ++ [z])); auto; [rewrite E, <- app_assoc; auto|now destruct b]. }
  unfold load_without_cache. destruct (suite_file_at w IP d SD) as (FA & sf & SF & SS). rewrite SF, SS, (suite_is_dir w d SD). cbn [negb].
  destruct (@cached_insert w dpath RD [] new_tree (d ++ [SUITE]) d (cached_nil w)) as (c1 & E1 & C1); [congruence|]. cbn [r_cache empty_registry]. rewrite E1. cbn [bind].
  destruct (@cached_insert w dpath RD _ c1 d d C1) as (c2 & E2 & C2). { apply suite_is_dir in SD. unfold is_dir in SD. now destruct (at_w d). }
  rewrite E2. cbn [bind su_source su_dir su_arc]. rewrite dstrip_app. cbn [unwrap bind].
  assert (CFG : inherit (sf_config sf) (w_defaults w d) = suite_config w d) by (unfold suite_config; now rewrite SF). rewrite CFG. clear CFG.
  cbn [r_next r_suites r_tests r_local r_search empty_registry dget app]. set (su := mkSuite 0 d d (suite_config w d)).
  assert (NE : x ++ [z] <> []) by now destruct x. set (st1 := mkReg 1 _ _ _ _ _).
  replace (match x ++ [z] with [] => st1 | _ :: _ => set_search st1 0 (set_insert (x ++ [z]) []) end) with (set_search st1 0 [x ++ [z]]) by (destruct (x ++ [z]); [easy|reflexivity]).
  unfold load_tests. cbn [su_dir su_arc su r_tests set_search set_tests r_search st1 dput dget Nat.eqb]. rewrite dpath_eqb_refl. cbn [unwrap bind search_paths r_local r_tests set_search set_tests].
  destruct (C58_local_config_partial su (x ++ [z])) as (cache & LC); auto; [cbn; congruence|]. cbn [su_dir su] in LC. change (r_local st1) with (@new_tree config). rewrite LC. cbn [bind]. unfold find_tests. cbn [su_source su]. rewrite ND. cbn [bind]. unfold append_tests. cbn [su_dir su set_local r_tests set_search set_tests dget]. rewrite dpath_eqb_refl. cbn [unwrap bind].
  eexists. split; [reflexivity|]. unfold tests_of. cbn [r_tests set_search set_tests set_local dput]. rewrite ?dpath_eqb_refl. cbn [flat_map snd app]. rewrite app_nil_r.
  fold su. pose proof (is_test_spec w su (effective w d (x ++ [z])) (x ++ [z]) NE) as IT. cbn [su_source su] in IT. fold su in IT.
  destruct (is_test w (d ++ x ++ [z]) su (effective w d (x ++ [z]))) eqn:EQ; cbn.
  - split; [lia|]. intros t. split; [intros [<-|[]]|intros [_ ->]; now left]. split; [now apply IT|reflexivity].
  - split; [lia|]. intros t. split; [easy|]. intros [AC _]. assert (X : true = false); [|easy]. symmetry. apply IT. auto.
Qed.
End File.

(** ** Examples and refutations *)
Local Open Scope string_scope. Local Open Scope list_scope.
Definition n_ (s : string) : str := of_string s.
Definition p_ (l : list string) : dpath := map of_string l.
Definition f_ (s : string) : str * entry := (of_string s, EFile).
Definition d_ (s : string) (l : list (str * entry)) : str * entry := (of_string s, EDir l).
(** the pattern [*.txt] *)
Definition txt (_ : str) (p : dpath) : bool := match dstrip (map (fun c => [c]) (rev (n_ ".txt"))) (map (fun c => [c]) (rev (last p []))) with Some _ => true | None => false end.
Definition conf (name : string) : config := mkConfig FDefault [n_ "*.txt"] [] [(n_ "NAME", n_ name)] [] [].
Definition w_of (root : entry) (source : option dpath) : world :=
  mkWorld root (p_ ["w"]) (fun d => Some (mkFile source (conf "suite"))) (fun _ => Some (mkConfig FDefault [] [] [(n_ "NAME", n_ "local")] [] []))
    txt (fun _ => default_config) (fun _ _ c => c).
Definition show (r : res registry) : option (list (dpath * dpath * str)) :=
  match r with Val st => Some (map (fun t => (te_suite t, te_abs t, match lookup (n_ "NAME") (cf_env (te_config t)) with Some s => s | None => [] end)) (tests_of st)) | _ => None end.
(** [/w/s] is a suite with files [a.txt], [.h.txt], [sub/b.txt], [sub/deep/c.txt] and a nested suite
    [inner] with [x.txt]; there are local configurations in [s], [sub] and [deep] *)
Definition r1 : entry := EDir [d_ "w" [d_ "s" [f_ "lit.suite.toml"; f_ "lit.local.toml"; f_ "a.txt"; f_ ".h.txt"; f_ "README";
  d_ "sub" [f_ "lit.local.toml"; f_ "b.txt"; d_ "deep" [f_ "lit.local.toml"; f_ "c.txt"]];
  d_ "plain" [f_ "e.txt"; f_ "f.txt"]; d_ "inner" [f_ "lit.suite.toml"; f_ "x.txt"; d_ "y" [f_ "z.txt"; f_ "lit.local.toml"]]]]].
Definition w1 : world := w_of r1 None.
Fixpoint plain_markers (e : entry) : bool :=
  match e with
  | EFile => true
  | EDir l => match lookup SUITE l with Some (EDir _) => false | _ => true end && (fix go l := match l with [] => true | x :: r => plain_markers (snd x) && go r end) l
  end.
Lemma plain_markers_at d : forall e0 l e, plain_markers e0 = true -> at_ e0 d = Some (EDir l) -> lookup SUITE l = Some e -> e = EFile.
Proof.
  induction d as [|x d IH]; intros e0 l e OK A L.
  - cbn [at_] in A. injection A as ->. cbn [plain_markers] in OK. apply andb_true_iff in OK as [OK _]. rewrite L in OK. now destruct e.
  - cbn [at_] in A. destruct e0 as [|l1]; [easy|]. destruct (lookup x l1) as [e2|] eqn:E2; [|easy]. apply (IH e2 l e); auto. apply lookup_in_pair in E2. cbn [plain_markers] in OK. apply andb_true_iff in OK as [_ OK]. clear - OK E2.
    induction l1 as [|y l1 IHl]; [easy|]. apply andb_true_iff in OK as [OK1 OK2]. destruct E2 as [->|E2]; auto.
Qed.
Lemma w1_ok : tidy (w_root w1) /\ is_dir w1 [] = true /\ in_place w1 /\ readable w1 /\ height (w_root w1) = 5.
Proof.
  splits; try reflexivity.
  - cbn. repeat (constructor; cbn; try (intuition discriminate)).
  - unfold in_place. intros d l e A L. split; [|cbn; eauto]. apply (plain_markers_at d (w_root w1) l e); auto.
  - unfold readable. intros p l _ _. cbn. discriminate.
Qed.
(** naming the suite finds its four tests and those of the nested suite, although the local files are
    not looked at *)
Example whole_suite : show (load w1 9 [p_ ["w"; "s"]]) = Some
  [(p_ ["w"; "s"], p_ ["w"; "s"; "a.txt"], n_ "suite"); (p_ ["w"; "s"], p_ ["w"; "s"; "sub"; "b.txt"], n_ "suite");
   (p_ ["w"; "s"], p_ ["w"; "s"; "sub"; "deep"; "c.txt"], n_ "suite"); (p_ ["w"; "s"], p_ ["w"; "s"; "plain"; "e.txt"], n_ "suite");
   (p_ ["w"; "s"], p_ ["w"; "s"; "plain"; "f.txt"], n_ "suite");
   (p_ ["w"; "s"; "inner"], p_ ["w"; "s"; "inner"; "x.txt"], n_ "suite"); (p_ ["w"; "s"; "inner"], p_ ["w"; "s"; "inner"; "y"; "z.txt"], n_ "suite")].
Proof. vm_compute. reflexivity. Qed.
Example whole_suite_covered : suite_dir w1 (p_ ["w"; "s"]) /\ suite_dir w1 (p_ ["w"; "s"; "inner"]) /\ exists x, p_ ["w"; "s"; "inner"] = w_cwd w1 ++ x.
Proof. splits; [eexists _, _; split; vm_compute; reflexivity..|]. now exists (p_ ["s"; "inner"]). Qed.
Example one_file : innermost w1 (p_ ["w"; "s"]) (p_ ["sub"; "deep"; "c.txt"]) /\ at_ (w_root w1) (p_ ["w"; "s"; "sub"; "deep"; "c.txt"]) = Some EFile /\
  show (load w1 1 [p_ ["w"; "s"; "sub"; "deep"; "c.txt"]]) = Some [(p_ ["w"; "s"], p_ ["w"; "s"; "sub"; "deep"; "c.txt"], n_ "local")].
Proof.
  splits; try reflexivity. unfold innermost. splits; [eexists _, _; split; vm_compute; reflexivity|easy|].
  intros a b E A B (l & e & H & K). destruct a as [|x a]; [easy|]. cbn in E. injection E as <- E. destruct a as [|x a]; [vm_compute in H; injection H as <-; vm_compute in K; easy|].
  injection E as <- E. destruct a as [|x a]; [vm_compute in H; injection H as <-; vm_compute in K; easy|]. injection E as <- E. symmetry in E. apply app_eq_nil in E. easy.
Qed.

(** C55 fails for a suite whose configuration names another source directory: naming the directory of
    the configuration aborts *)
Definition r2 : entry := EDir [d_ "w" [d_ "s" [f_ "lit.suite.toml"; d_ "tests" [f_ "a.txt"]; d_ "other" [f_ "b.txt"]]]].
Definition w2 : world := w_of r2 (Some (p_ ["w"; "s"; "tests"])).
Theorem C55_source_dir_refuted : suite_dir w2 (p_ ["w"; "s"]) /\ load w2 9 [p_ ["w"; "s"]] = Panic /\
  show (load w2 9 [p_ ["w"; "s"; "tests"]]) = Some [(p_ ["w"; "s"], p_ ["w"; "s"; "tests"; "a.txt"], n_ "suite")].
Proof. splits; [eexists _, _; split; vm_compute; reflexivity|vm_compute; reflexivity..]. Qed.
(** C56 fails for a directory inside a suite: its tests are taken from the wrong place, where there is
    no file *)
Theorem C56_directory_refuted : show (load w1 9 [p_ ["w"; "s"; "plain"]]) = Some
    [(p_ ["w"; "s"], p_ ["w"; "s"; "e.txt"], n_ "suite"); (p_ ["w"; "s"], p_ ["w"; "s"; "f.txt"], n_ "suite")] /\
  at_ (w_root w1) (p_ ["w"; "s"; "e.txt"]) = None.
Proof. splits; vm_compute; reflexivity. Qed.
(** C57: naming a suite and one of its files runs only that file, in either order; naming a file next
    to the tests of a suite whose source directory is elsewhere loses the tests found before *)
Theorem C57_union_refuted :
  show (load w1 9 [p_ ["w"; "s"; "inner"]; p_ ["w"; "s"; "inner"; "x.txt"]]) = Some [(p_ ["w"; "s"; "inner"], p_ ["w"; "s"; "inner"; "x.txt"], n_ "suite")] /\
  show (load w1 9 [p_ ["w"; "s"; "inner"; "x.txt"]; p_ ["w"; "s"; "inner"]]) = Some [(p_ ["w"; "s"; "inner"], p_ ["w"; "s"; "inner"; "x.txt"], n_ "suite")] /\
  exists st, load w1 9 [p_ ["w"; "s"; "inner"]] = Val st /\ length (tests_of st) = 2.
Proof. splits; [vm_compute; reflexivity..|]. eexists. split; vm_compute; reflexivity. Qed.
Theorem C57_lost_refuted :
  show (load w2 9 [p_ ["w"; "s"; "tests"; "a.txt"]]) = Some [(p_ ["w"; "s"], p_ ["w"; "s"; "tests"; "a.txt"], n_ "suite")] /\
  show (load w2 9 [p_ ["w"; "s"; "tests"; "a.txt"]; p_ ["w"; "s"; "other"; "b.txt"]]) = Some [].
Proof. splits; vm_compute; reflexivity. Qed.
(** C58: the local configuration of a suite's own directory is not consulted; none is when the whole
    suite is run; and after that of a directory has been used, those below it are ignored, so that the
    configuration depends on the other arguments; it may also abort *)
Definition w3 : world := mkWorld r1 (p_ ["w"]) (w_suite w1)
  (fun p => Some (mkConfig FDefault [] [] [(n_ "NAME", last (removelast p) [])] [] [])) txt (fun _ => default_config) (fun _ _ c => c).
Theorem C58_own_directory_refuted : local_file w3 (p_ ["w"; "s"]) <> None /\
  show (load w3 9 [p_ ["w"; "s"; "a.txt"]]) = Some [(p_ ["w"; "s"], p_ ["w"; "s"; "a.txt"], n_ "suite")].
Proof. split; [discriminate|vm_compute; reflexivity]. Qed.
Theorem C58_whole_suite_refuted : local_file w1 (p_ ["w"; "s"; "inner"; "y"]) <> None /\
  show (load w1 9 [p_ ["w"; "s"; "inner"]]) = Some [(p_ ["w"; "s"; "inner"], p_ ["w"; "s"; "inner"; "x.txt"], n_ "suite"); (p_ ["w"; "s"; "inner"], p_ ["w"; "s"; "inner"; "y"; "z.txt"], n_ "suite")].
Proof. split; [discriminate|vm_compute; reflexivity]. Qed.
Theorem C58_order_refuted :
  show (load w3 9 [p_ ["w"; "s"; "sub"; "deep"; "c.txt"]]) = Some [(p_ ["w"; "s"], p_ ["w"; "s"; "sub"; "deep"; "c.txt"], n_ "deep")] /\
  show (load w3 9 [p_ ["w"; "s"; "sub"; "b.txt"]; p_ ["w"; "s"; "sub"; "deep"; "c.txt"]]) = Some
    [(p_ ["w"; "s"], p_ ["w"; "s"; "sub"; "b.txt"], n_ "sub"); (p_ ["w"; "s"], p_ ["w"; "s"; "sub"; "deep"; "c.txt"], n_ "sub")].
Proof. split; vm_compute; reflexivity. Qed.
Definition r4 : entry := EDir [d_ "w" [d_ "s" [f_ "lit.suite.toml"; d_ "sub" [f_ "lit.local.toml"; f_ "b.txt"; d_ "inner" [f_ "lit.suite.toml"; f_ "x.txt"]]]]].
Theorem C58_abort_refuted : let w := w_of r4 None in
  (exists st, load w 9 [p_ ["w"; "s"; "sub"; "inner"]; p_ ["w"; "s"; "sub"; "inner"; "x.txt"]] = Val st) /\
  load w 9 [p_ ["w"; "s"; "sub"; "b.txt"]; p_ ["w"; "s"; "sub"; "inner"]; p_ ["w"; "s"; "sub"; "inner"; "x.txt"]] = Panic.
Proof. split; [eexists; vm_compute; reflexivity|vm_compute; reflexivity]. Qed.
(** C59: once an outer suite has been loaded, a file of a nested suite is run in the outer one *)
Theorem C59_nearest_refuted :
  show (load w1 9 [p_ ["w"; "s"; "inner"; "x.txt"]]) = Some [(p_ ["w"; "s"; "inner"], p_ ["w"; "s"; "inner"; "x.txt"], n_ "suite")] /\
  show (load w1 9 [p_ ["w"; "s"; "a.txt"]; p_ ["w"; "s"; "inner"; "x.txt"]]) = Some
    [(p_ ["w"; "s"], p_ ["w"; "s"; "a.txt"], n_ "suite"); (p_ ["w"; "s"], p_ ["w"; "s"; "inner"; "x.txt"], n_ "suite")].
Proof. split; vm_compute; reflexivity. Qed.

Print Assumptions C55_directories_partial.
Print Assumptions C55_order.
Print Assumptions C55_no_patterns_refuted.
Print Assumptions C56_file_partial.
Print Assumptions C58_local_config_partial.
Print Assumptions C57_union_refuted.
