(** The search for a pattern with substitutions: the dynamic parts, and the search for the first part. *)
From Coq Require Import String.
From Verif Require Import Base Text_Model Cursor_Model Check_Model Lit_Model Lit_Spec Env_Model Num_Model Num_Spec Num_Proofs Gram_Model Sum_Spec Parse_Model
  Regex_Model Regex_Spec Regex_Proofs Regex_Engine Regex_Frame Smart_Model Smart_Spec Smart_Static Smart_Parts Chain_Spec Chain_Proofs.
From Verif Require Lit_Proofs.
Open Scope list_scope.
Open Scope nat_scope.
Ltac splits := repeat match goal with |- _ /\ _ => split end.

Lemma escape_inj a c : escape a = escape c -> a = c.
Proof.
  intros H. assert (L : lex_all (escape a) = lex_all (escape c)) by now rewrite H. rewrite !escape_lex in L. injection L as L. clear H.
  revert c L. induction a as [|x a IH]; intros [|y c] L; try discriminate; [reflexivity|]. injection L as -> L. f_equal. now apply IH.
Qed.
Definition lit_text_of (q : part) : str := match q with QLit s => s | _ => [] end.
Lemma literals_text lp : forallb is_literal lp = true -> flat_map part_text lp = escape (flat_map lit_text_of lp).
Proof.
  induction lp as [|q lp IH]; [reflexivity|]. cbn [forallb flat_map]. intros H. apply andb_prop in H as [A B]. rewrite escape_app, <- IH by easy. destruct q; try discriminate. reflexivity.
Qed.
Lemma canonical_same strict t : (strict = true \/ ~ In 9%N t) -> (forall c, In c t -> (c < 128)%N) -> canonical strict t = t.
Proof.
  intros S A. unfold canonical, canonicalize_horizontal_whitespace. destruct strict; [easy|]. destruct S as [|S]; [discriminate|].
  replace (existsb is_non_canonical_horizontal_whitespace t) with false; [easy|]. symmetry. apply not_true_is_false. intros H. apply existsb_exists in H as (c & Hc & W).
  pose proof (A c Hc). assert (c <> 9%N) by (intros ->; auto). revert W. unfold is_non_canonical_horizontal_whitespace.
  repeat match goal with
    | |- context [(?x <=? ?y)%N] => let E := fresh in destruct (N.leb_spec x y) as [E|E]
    | |- context [N.eqb ?x ?y] => let E := fresh in destruct (N.eqb_spec x y) as [E|E]
    end; cbn; try discriminate; intros; lia.
Qed.
Lemma lower_app E ci strict l1 l2 ops : lower_parts E ci strict (l1 ++ l2) = Val ops ->
  exists o1 o2, lower_parts E ci strict l1 = Val o1 /\ lower_parts E ci strict l2 = Val o2 /\ ops = o1 ++ o2.
Proof.
  revert ops. induction l1 as [|q l1 IH]; intros ops H; cbn [app lower_parts] in *; [eauto|].
  destruct (lower_part E ci strict q) as [a| |]; try discriminate. cbn [bind] in H. destruct (lower_parts E ci strict (l1 ++ l2)) as [c| |]; try discriminate.
  destruct (IH c eq_refl) as (o1 & o2 & A & B & ->). cbn [bind] in H. injection H as <-. rewrite A. cbn [bind]. exists (a ++ o1), o2. splits; auto. now rewrite app_assoc.
Qed.
Lemma alike_any ci x y : alike false x y -> alike ci x y.
Proof. intros [H|[H _]]; [now left|discriminate]. Qed.

Section Dynamic.
Context (ci strict : bool) (fuel : nat) (b : bytes) (line : Z) (e : nat) (Be : e <= length b).
Notation E := ascii_engine.
Notation goes := (goes ci fuel b line e).
Notation linked := (linked ci b e line).
Notation part_at := (match_part E ci fuel b line).

(** a substitution *)
Lemma sub_go q f x ty i m s m1 l j F : substitution q f x -> (match ty with Some g => g | None => None end) = f -> i <= e ->
  part_at (OSub E x ty) (mkRange i e) true m = Val (Some (s, m1)) ->
  m1 = m /\ i <= rend s <= e /\ (linked l (Smart_Model.x_env m) (rend s) j F -> linked (q :: l) (Smart_Model.x_env m) i j F).
Proof.
  intros Su Ex L H. cbn [match_part] in H. rewrite Ex in H. unfold evaluate in H.
  destruct (evaluate_expr fuel (look_up (Smart_Model.x_env m)) f (eval_of line x)) as [n|t| | | | |] eqn:Ev; try discriminate; cbn [bind] in H.
  - pose proof Ev as Ev2. apply eval_tree in Ev.
    assert (Ed : exists g, display match f with Some g => mkNum (Some g) (nvalue n) | None => n end = display (mkNum g (nvalue n)) /\ (f <> None -> g = f) /\
      (f = None -> number_format (look_up (Smart_Model.x_env m)) line x g)).
    { destruct f as [g|]; [exists (Some g); splits; [easy|auto|discriminate]|]. exists (nformat n). splits; [now destruct n|congruence|]. intros _. eapply eval_shown; eauto. }
    destruct Ed as (g & Ed & Hg & Hg2). rewrite Ed in H. unfold regex_of in H. cbn [rx_build ascii_engine] in H. rewrite (ordinary_build _ _ (display_ordinary _)) in H. cbn [bind rx_search ascii_engine] in H.
    set (y := mkRx ci (cat (map (fun c => RSet (chr c)) (display (mkNum g (nvalue n))))) [None]) in *.
    destruct (re_search y b (mkRange i e) true) as [lg|] eqn:Se; [|discriminate].
    apply (search_at ci b e) in Se as (j0 & h & -> & R & Lj); [|easy| |easy]; [|exact (proj1 (build_proper _ _ _ (ordinary_build ci _ (display_ordinary (mkNum g (nvalue n))))))].
    injection H as <- <-. cbn [rend]. apply (proj1 (run_lang _ _ _)) in R. cbn [x_re y] in R. apply cat_reads in R; auto. apply reads_piece in R; auto. inversion R; subst.
    splits; auto; try lia. intros Lk. eapply lk_number; eauto.
  - apply eval_text in Ev as (y & Ey & T). apply eval_var in Ey as (v & -> & N). destruct N as [N|(r & ->)]; [|exfalso; inversion T as [? ? V|? ? ? V]; discriminate V].
    unfold regex_of in H. cbn [rx_build ascii_engine] in H. destruct (build ci t) as [z|] eqn:B; [|discriminate]. cbn [bind rx_search ascii_engine] in H. pose proof (build_proper _ _ _ B) as [Pz Cz].
    destruct (re_search z b (mkRange i e) true) as [lg|] eqn:Se; [|discriminate]. apply (search_at ci b e) in Se as (j0 & h & -> & R & Lj); auto.
    injection H as <- <-. cbn [rend]. apply (proj1 (run_lang _ _ _)) in R. splits; auto; try lia. intros Lk. eapply lk_text; eauto.
Qed.
(** a number that is captured, outside of a regular expression *)
Lemma num_go f v i m s m1 : compiles (format_lang (format_of f)) -> identifier (v_text v) -> i <= e ->
  part_at (ONum E f (Some (mkCapt v (TyNum f)))) (mkRange i e) true m = Val (Some (s, m1)) ->
  exists t z, i <= rend s <= e /\ in_lang (format_lang (format_of f)) t /\ Forall2 (alike ci) t (between b i (rend s)) /\
    parse_with_format (between b i (rend s)) (format_of f) = POk z /\
    m1 = mkMach (VNum (ENum (mkNum (Some (format_of f)) z)) :: Smart_Model.x_stack m) (x_got m ++ [(s, mkCapt v (TyNum f))]) (Smart_Model.x_env m).
Proof.
  intros C Id L H. cbn [match_part] in H. destruct (slice b (mkRange i e)) as [[|c0 s0]|]; try discriminate. cbn [unwrap bind] in H.
  cbn [rx_build ascii_engine option_map k_name] in H. set (q := QMatch (MNumeric f (Some v) None)).
  assert (Sq : Forall (static false) [q]) by (constructor; [now apply st_num_def|constructor]).
  destruct (statics_ok false [q] Sq) as (ts & n & rs & idx & P). assert (Et : format_pattern f (Some (v_text v)) = flat_map part_text [q]) by (cbn; now rewrite app_nil_r).
  rewrite Et in H. destruct (build false (flat_map part_text [q])) as [x|] eqn:B; [|discriminate]. cbn [unwrap bind] in H. pose proof (build_proper _ _ _ B) as [Px Cx].
  destruct (static_built _ _ _ _ _ _ _ P B) as (Ex & _ & _). cbn [rx_search ascii_engine] in H.
  destruct (re_search x b (mkRange i e) true) as [lg|] eqn:Se; [|discriminate]. apply (search_at false b e) in Se as (j0 & g & -> & R & Lj); auto.
  fold (format_of f) in H. change (text_of b (mkRange i j0)) with (between b i j0) in H. destruct (parse_with_format (between b i j0) (format_of f)) as [z|] eqn:Pz; [|discriminate]. injection H as <- <-. cbn [rend].
  rewrite Ex in R. cbn [x_re] in R.
  assert (R0 : run false b e (cat (map (re_shift 0) rs)) i no_caps j0 g). { rewrite (map_ext _ (fun r => r)), map_id; [exact R|]. clear. intros r. induction r; cbn [re_shift Nat.add]; congruence. }
  destruct (pso_run _ _ _ _ _ _ P b e 0 i no_caps j0 g Be L R0) as (cs & Pc & _ & _). inversion Pc as [|? ? ? k ? c1 c2 P1 P2]; subst. inversion P2; subst.
  inversion P1 as [| | | |? ? ? ? t L1 L2 I A]; subst. exists t, z. splits; auto; try lia. eapply Forall2_imp; [|exact A]. intros a c. apply alike_any.
Qed.
(** a number that is found is not empty *)
Lemma num_found f v x r a l : compiles (format_lang (format_of f)) -> identifier (v_text v) -> build false (format_pattern f (Some (v_text v))) = Some x -> rend r = e ->
  re_search x b r a = Some l -> exists i j t, l = Some (mkRange i j) :: t /\ i < j /\ j <= e.
Proof.
  intros C Id B Er H. set (q := QMatch (MNumeric f (Some v) None)).
  assert (Sq : Forall (static false) [q]) by (constructor; [now apply st_num_def|constructor]).
  destruct (statics_ok false [q] Sq) as (ts & n & rs & idx & P). assert (Et : format_pattern f (Some (v_text v)) = flat_map part_text [q]) by (cbn; now rewrite app_nil_r).
  rewrite Et in B. pose proof (build_proper _ _ _ B) as [Px Cx]. destruct (static_built _ _ _ _ _ _ _ P B) as (Ex & _ & _).
  apply search_some in H as (i & j & g & -> & L & _ & R & _); [|exact Px]. rewrite Er, Cx, Ex in *. cbn [x_re] in R.
  assert (R0 : run false b e (cat (map (re_shift 0) rs)) i no_caps j g). { rewrite (map_ext _ (fun r => r)), map_id; [exact R|]. clear. intros z. induction z; cbn [re_shift Nat.add]; congruence. }
  destruct (pso_run _ _ _ _ _ _ P b e 0 i no_caps j g Be (proj2 L) R0) as (cs & Pc & _ & _). inversion Pc as [|? ? ? k ? c1 c2 P1 P2]; subst. inversion P2; subst.
  inversion P1 as [| | | |? ? ? ? t L1 L2 I A]; subst. exists i, j. eexists. splits; [reflexivity| |exact L2].
  assert (N : t <> []). { destruct I as (sg & ds & -> & _ & _ & Lo). intros Z. apply app_eq_nil in Z as [_ Z]. apply app_eq_nil in Z as [_ Z]. subst ds. cbn [List.length] in Lo. destruct (format_of f) as [[|p]|[|p]|[|p] [] c]; cbn [format_lang lo Nat.eqb] in Lo; lia. }
  destruct (Nat.eq_dec i j) as [->|]; [|lia]. exfalso. unfold between in A. rewrite Nat.sub_diag in A. cbn in A. inversion A; subst. now apply N.
Qed.
(** what is pending *)
Lemma pending_go p lp ops i m j m2 : stands ci p lp -> Forall (compilable ci strict) lp -> lower_parts E ci strict (pending_part p) = Val ops ->
  goes ops i m j m2 -> i <= e -> good_got b m2 ->
  exists F, linked lp (Smart_Model.x_env m) i j F /\ same_vars F (Smart_Model.x_env m2) /\ Smart_Model.x_stack m2 = Smart_Model.x_stack m /\ i <= j <= e.
Proof.
  intros (Ss & T & Cs & Li) Cm H G L Gd. unfold pending_part in H. destruct (p_text p) as [|c0 s0] eqn:Pt.
  - cbn [lower_parts] in H. injection H as <-. apply goes_nil in G as [-> ->]. exists (Smart_Model.x_env m). splits; auto; try lia; [|apply same_refl]. apply empty_go; auto.
    rewrite <- T. unfold as_regex. rewrite Pt. now destruct (p_lit p).
  - rewrite <- Pt in H. cbn [lower_parts] in H. destruct (p_lit p) eqn:Lt.
    + unfold lower_part, literal_text in H. unfold nonempty in H. rewrite Pt in H. cbn [negb assert bind] in H. rewrite <- Pt in H. cbn [app] in H. injection H as <-.
      unfold as_regex in T. rewrite Lt in T. symmetry in Li. pose proof (literals_text lp Li) as Tl. rewrite <- T in Tl. apply escape_inj in Tl.
      assert (Cn : canonical strict (p_text p) = p_text p).
      { rewrite Tl. apply canonical_same.
        - destruct strict; [now left|]. right. intros I. apply in_flat_map in I as (q & Hq & I). rewrite Forall_forall in Cm. specialize (Cm q Hq). rewrite forallb_forall in Li. specialize (Li q Hq). destruct q as [t| |]; try discriminate.
          inversion Cm as [? _ A _|? ? ? A|]; subst; [destruct (A t eq_refl); [discriminate|auto]|inversion A].
        - intros c I. apply in_flat_map in I as (q & Hq & I). rewrite Forall_forall in Cm. specialize (Cm q Hq). rewrite forallb_forall in Li. specialize (Li q Hq). destruct q as [t| |]; try discriminate.
          inversion Cm as [? _ _ A|? ? ? A|]; subst; [now apply (A t)|inversion A]. }
      rewrite Cn in G. apply goes_part in G as (s & m1 & Pa & G); [|discriminate..]. apply goes_nil in G as [-> ->].
      destruct (literal_go ci fuel b line e Be lp (p_text p) i m s m1 Ss T L Li Pa) as (A & -> & B). exists (Smart_Model.x_env m). splits; auto; try lia. apply same_refl.
    + cbn [lower_part] in H. destruct (regex_ops E ci (p_text p) (p_caps p)) as [a| |] eqn:R; try discriminate. cbn [bind] in H. rewrite app_nil_r in H. injection H as <-.
      unfold as_regex in T. rewrite Lt in T. rewrite T, Cs in R. eapply regex_go; eauto.
Qed.
Lemma chain_go l : forall p lp ops i m j m2, stands ci p lp -> Forall (compilable ci strict) lp -> Forall (compilable ci strict) l ->
  lower_parts E ci strict (segments p l) = Val ops -> goes ops i m j m2 -> i <= e -> good_got b m2 ->
  exists F, linked (lp ++ l) (Smart_Model.x_env m) i j F /\ same_vars F (Smart_Model.x_env m2) /\ Smart_Model.x_stack m2 = Smart_Model.x_stack m /\ i <= j <= e.
Proof.
  induction l as [|q l IH]; intros p lp ops i m j m2 St Cp Cl H G L Gd; cbn [segments] in H.
  - rewrite app_nil_r. eapply pending_go; eauto.
  - inversion Cl as [|? ? Cq Cl2]; subst. destruct (is_dynamic q) eqn:D.
    + apply lower_app in H as (o1 & o2 & H1 & H2 & ->). apply lower_app in H2 as (o3 & o4 & H2 & H3 & ->).
      apply goes_app in G as (k & mk & G1 & G2). apply goes_app in G2 as (k2 & mk2 & G2 & G3).
      assert (Gk : good_got b mk). { intros r c Hr. apply (Gd r c). eapply goes_got; [exact G3|]. eapply goes_got; [exact G2|]. exact Hr. }
      destruct (pending_go _ _ _ _ _ _ _ St Cp H1 G1 L Gk) as (F1 & L1 & S1 & T1 & B1).
      assert (Go : forall F2, linked (q :: l) (Smart_Model.x_env mk) k j F2 -> same_vars F2 (Smart_Model.x_env m2) -> Smart_Model.x_stack m2 = Smart_Model.x_stack mk -> i <= j <= e ->
        exists F, linked (lp ++ q :: l) (Smart_Model.x_env m) i j F /\ same_vars F (Smart_Model.x_env m2) /\ Smart_Model.x_stack m2 = Smart_Model.x_stack m /\ i <= j <= e).
      { intros F2 L2 S2 T2 B2. destruct (linked_same _ _ _ _ _ _ _ _ _ L2 F1 (same_sym _ _ S1)) as (F3 & L3 & S3). exists F3. splits; try congruence; try lia.
        - eapply linked_app; eauto.
        - eapply same_trans; [apply same_sym, S3|exact S2]. }
      inversion Cq as [? Sq _ _|? f x Su|f v x C Id]; subst; [rewrite (static_not_dynamic _ _ Sq) in D; discriminate|..].
      * assert (Eo : exists ty, o3 = [OSub E x ty] /\ (match ty with Some g => g | None => None end) = f).
        { destruct Su; cbn in H2; injection H2 as <-; eexists; split; reflexivity. }
        destruct Eo as (ty & -> & Ty). apply goes_part in G2 as (s & m1 & Pa & G2); [|discriminate..]. apply goes_nil in G2 as [-> ->].
        destruct (sub_go q f x ty k mk s m1 l j (Smart_Model.x_env mk) Su Ty ltac:(lia) Pa) as (-> & Bs & _).
        destruct (IH nothing_pending [] o4 (rend s) mk j m2 (stands_nil _) (Forall_nil _) Cl2 H3 G3 ltac:(lia) Gd) as (F2 & L2 & S2 & T2 & B2). cbn [app] in L2.
        destruct (sub_go q f x ty k mk s mk l j F2 Su Ty ltac:(lia) Pa) as (_ & _ & Lk). apply (Go F2); auto. lia.
      * cbn in H2. injection H2 as <-. apply goes_part in G2 as (s & m1 & Pa & G2); [|discriminate..]. destruct (num_go f v k mk s m1 C Id ltac:(lia) Pa) as (t & z & Bs & I & A & Pz & ->).
        apply goes_check in G2. apply goes_bind in G2 as (top & st & w & E1 & W & G2). cbn [Smart_Model.x_stack] in E1. injection E1 as <- <-. cbn [as_numeric bind] in W. injection W as <-.
        apply goes_nil in G2 as [-> ->]. cbn [x_got Smart_Model.x_env] in G3.
        destruct (IH nothing_pending [] o4 (rend s) _ j m2 (stands_nil _) (Forall_nil _) Cl2 H3 G3 ltac:(lia) Gd) as (F2 & L2 & S2 & T2 & B2). cbn [app Smart_Model.x_env Smart_Model.x_stack] in *.
        apply (Go F2); auto; [|lia]. eapply lk_define with (k := rend s); eauto; lia.
    + assert (Sq : static ci q). { inversion Cq as [? Sq _ _|? f x Su|]; subst; [easy|destruct Su; discriminate|discriminate]. }
      destruct (IH (snd (compact_one ([], p) q)) (lp ++ [q]) ops i m j m2) as (F & Lk & Sm & T & B); auto.
      * now apply stands_snoc.
      * apply Forall_app. auto.
      * exists F. rewrite <- app_assoc in Lk. auto.
Qed.
End Dynamic.

(** * The first part *)
Section First.
Context (ci strict : bool) (fuel : nat) (b : bytes) (line : Z) (e : nat) (Be : e <= length b).
Notation E := ascii_engine.
Notation part_at := (match_part E ci fuel b line).
(** what the operations of a compiled pattern satisfy *)
Definition op_ok (o : op E) : Prop :=
  match o with
  | ORegex _ x _ => made E x
  | ONum _ f (Some c) => compiles (format_lang (format_of f)) /\ identifier (v_text (k_name c))
  | ONum _ _ None => False
  | _ => True
  end.
Lemma regex_ops_ok s cs ops : regex_ops E ci s cs = Val ops -> Forall op_ok ops.
Proof.
  unfold regex_ops, regex_of. destruct (rx_build E ci s) as [x|] eqn:B; [|discriminate]. cbn [bind]. destruct (groups_of _ _) as [gs| |]; try discriminate. cbn [bind]. intros [= <-].
  constructor; [now exists ci, s|]. apply Forall_forall. intros o Ho. apply in_map_iff in Ho as (g & <- & _). exact I.
Qed.
Lemma pending_ok p ops : lower_parts E ci strict (pending_part p) = Val ops -> Forall op_ok ops.
Proof.
  unfold pending_part. destruct (p_text p) as [|c0 s0] eqn:Pt; [cbn; intros [= <-]; constructor|]. rewrite <- Pt. cbn [lower_parts]. destruct (p_lit p); cbn [lower_part].
  - unfold literal_text. destruct (assert _); try discriminate. cbn [bind]. intros [= <-]. repeat constructor.
  - destruct (regex_ops E ci (p_text p) (p_caps p)) as [a| |] eqn:R; try discriminate. cbn [bind]. rewrite app_nil_r. intros [= <-]. eapply regex_ops_ok; eauto.
Qed.
Lemma segments_ok l : forall p ops, Forall (compilable ci strict) l -> lower_parts E ci strict (segments p l) = Val ops -> Forall op_ok ops.
Proof.
  induction l as [|q l IH]; intros p ops Cl H; cbn [segments] in H; [eapply pending_ok; eauto|]. inversion Cl as [|? ? Cq Cl2]; subst. destruct (is_dynamic q) eqn:D; [|eapply IH; eauto].
  apply lower_app in H as (o1 & o2 & H1 & H2 & ->). apply lower_app in H2 as (o3 & o4 & H2 & H3 & ->). apply Forall_app. split; [eapply pending_ok; eauto|]. apply Forall_app. split; [|eapply IH; eauto].
  inversion Cq as [? Sq _ _|? f x Su|f v x C Id]; subst; [rewrite (static_not_dynamic _ _ Sq) in D; discriminate|..].
  - destruct Su; cbn in H2; injection H2 as <-; repeat constructor.
  - cbn in H2. injection H2 as <-. repeat constructor; auto.
Qed.
Lemma leftmost_here t n : forall s i, leftmost ci b t e n s = Some i -> occurs ci b e i t = true /\ s <= i < s + n.
Proof.
  induction n as [|n IH]; intros s i; cbn [leftmost]; [discriminate|]. destruct (occurs ci b e s t) eqn:O; [intros [= <-]; split; [easy|lia]|]. intros H. apply IH in H as [A B]. split; [easy|lia].
Qed.
(** where a part is found it stands *)
Lemma found_stands o s m r m1 : op_ok o -> s <= e -> part_at o (mkRange s e) false m = Val (Some (r, m1)) ->
  part_at o (mkRange (rstart r) e) true m = Val (Some (r, m1)) /\ s <= rstart r <= rend r /\ rend r <= e.
Proof.
  intros Ok L H. destruct o as [t|x gs|f c|x ty|v ty|x]; cbn [match_part rstart rend] in H |- *; try discriminate.
  - destruct (leftmost ci b t e (e - s) s) as [i|] eqn:Lm; [|discriminate]. injection H as <- <-. apply leftmost_here in Lm as [O B]. cbn [rstart rend leftmost]. rewrite O. splits; auto; try lia.
    apply Lit_Proofs.occurs_spec in O as [O _]. lia.
  - destruct (rx_search E x b (mkRange s e) false) as [l|] eqn:Se; [|discriminate]. destruct (eo_head _ ascii_engine_ok _ _ _ _ _ Ok Se) as (i & j & t & -> & A1 & A2 & A3 & _).
    injection H as <- <-. cbn [rstart rend] in *. destruct (eo_leftmost _ ascii_engine_ok _ _ _ _ _ _ _ Ok Se) as [S2 _]. rewrite S2. splits; auto.
  - destruct c as [c|]; [|easy]. destruct Ok as [C Id]. destruct (slice b (mkRange s e)) as [[|c0 s0]|]; try discriminate. cbn [unwrap bind option_map] in H |- *.
    destruct (rx_build E false (format_pattern f (Some (v_text (k_name c))))) as [x|] eqn:B; [|discriminate]. cbn [unwrap bind] in H |- *.
    destruct (rx_search E x b (mkRange s e) false) as [l|] eqn:Se; [|discriminate]. 
    assert (Nf : exists i j t, l = Some (mkRange i j) :: t /\ i < j /\ j <= e) by (eapply num_found; [exact Be|exact C|exact Id|exact B| |exact Se]; reflexivity). destruct Nf as (i & j & t & -> & Lij & Lje).
    assert (Md : made E x) by (eexists; eexists; exact B). destruct (eo_head _ ascii_engine_ok _ _ _ _ _ Md Se) as (i' & j' & t' & Eq & A1 & _). injection Eq as <- <- _. cbn [rstart] in A1.
    destruct (eo_leftmost _ ascii_engine_ok _ _ _ _ _ _ _ Md Se) as [S2 _]. destruct (parse_with_format _ _) as [z|] eqn:Pz; [|discriminate]. injection H as <- <-. cbn [rstart rend].
    rewrite S2, Pz. unfold slice. cbn [rstart rend]. destruct (Nat.leb_spec i e); [|lia]. destruct (Nat.leb_spec e (length b)); [|lia]. cbn [andb unwrap bind].
    destruct (firstn (e - i) (skipn i b)) as [|c1 s1] eqn:Fn; [exfalso; apply (f_equal (@List.length N)) in Fn; rewrite firstn_length, skipn_length in Fn; cbn in Fn; lia|]. splits; auto; lia.
  - destruct (evaluate _ _ _ _ _) as [v| |]; try discriminate. cbn [bind] in H |- *. unfold regex_of in *. destruct (rx_build E ci _) as [y|] eqn:B; [|discriminate]. cbn [bind] in H |- *.
    assert (Md : made E y) by (eexists; eexists; exact B). destruct (rx_search E y b (mkRange s e) false) as [l|] eqn:Se; [|discriminate]. destruct (eo_head _ ascii_engine_ok _ _ _ _ _ Md Se) as (i & j & t & -> & A1 & A2 & A3 & _).
    injection H as <- <-. cbn [rstart rend] in *. destruct (eo_leftmost _ ascii_engine_ok _ _ _ _ _ _ _ Md Se) as [S2 _]. rewrite S2. splits; auto.
Qed.
Lemma rounds_go n : forall o rest s env0 r m, op_ok o -> s <= e -> search_rounds E ci fuel b line n o rest s e false env0 = Some (Val (Some (r, m))) ->
  s <= rstart r /\ rstart r <= e /\ goes ci fuel b line e (o :: rest) (rstart r) (mkMach [] [] env0) (rend r) m.
Proof.
  induction n as [|n IH]; intros o rest s env0 r m Ok L H; cbn [search_rounds] in H; [discriminate|].
  destruct (part_at o (mkRange s e) false (mkMach [] [] env0)) as [[[r1 m1]|]| |] eqn:P; try discriminate.
  pose proof (found_stands _ _ _ _ _ Ok L P) as (P2 & B1 & B2).
  destruct (match_parts E ci fuel b line rest (rend r1) e m1) as [[stop|[stop m2]]| |] eqn:Pr; try discriminate.
  - set (s' := Nat.min (Nat.max stop (S s)) (length b)) in *. destruct (Nat.leb_spec s' e) as [Ls|Ls].
    + apply IH in H; auto. destruct H as (H1 & H2 & H3). splits; auto. subst s'. lia.
    + exfalso. destruct n as [|n]; [discriminate|]. cbn [search_rounds] in H. destruct (part_at o (mkRange s' e) false (mkMach [] [] env0)) as [[[r3 m3]|]| |] eqn:P3; try discriminate.
      clear -P3 Ls Ok Be. destruct o as [t|x gs|f c|x ty|v ty|x]; cbn [match_part rstart rend] in P3; try discriminate.
      * replace (e - s') with 0 in P3 by lia. discriminate.
      * destruct (rx_search E x b (mkRange s' e) false) as [l|] eqn:Se; [|discriminate]. destruct (eo_head _ ascii_engine_ok _ _ _ _ _ Ok Se) as (i & j & t & -> & A1 & A2 & A3 & _). cbn in *. lia.
      * unfold slice in P3. cbn [rstart rend] in P3. destruct (Nat.leb_spec s' e); [lia|]. discriminate.
      * destruct (evaluate _ _ _ _ _) as [v| |]; try discriminate. cbn [bind] in P3. unfold regex_of in *. destruct (rx_build E ci _) as [y|] eqn:B; [|discriminate]. cbn [bind] in P3.
        assert (Md : made E y) by (eexists; eexists; exact B). destruct (rx_search E y b (mkRange s' e) false) as [l|] eqn:Se; [|discriminate]. destruct (eo_head _ ascii_engine_ok _ _ _ _ _ Md Se) as (i & j & t & -> & A1 & A2 & A3 & _). cbn in *. lia.
  - injection H as <- <-. cbn [rstart rend]. splits; try lia. apply parts_go in Pr. eapply go_part; [| |exact P2|exact Pr]; intros; intros ->; discriminate P.
Qed.
End First.
