(** Sets of patterns that do not depend on variables: compilation, and the matches that are reported. *)
From Coq Require Import String Sorted.
From Verif Require Import Base Text_Model Cursor_Model Check_Model Lit_Model Lit_Spec Env_Model Num_Model Gram_Model Parse_Model
  Regex_Model Regex_Spec Regex_Proofs Regex_Engine Regex_Frame Smart_Model Smart_Spec Smart_Static Smart_Parts PatSet_Model PatSet_Spec.
Open Scope list_scope.
Open Scope nat_scope.
Ltac splits := repeat match goal with |- _ /\ _ => split end.

(** * The end of the range *)
Lemma lang_mono ci b e e' : e <= e' -> (forall r i j, lang ci b e r i j -> lang ci b e' r i j) /\ (forall r n i j, lang_n ci b e r n i j -> lang_n ci b e' r n i j).
Proof.
  intros L. apply lang_mutind; intros; try (now constructor).
  - apply lg_set with c; auto. lia.
  - eapply lg_cat; eauto.
  - eapply lg_rep; eauto.
  - eapply ln_more; eauto.
Qed.
Lemma piece_mono ci b e e' q i j cs : e <= e' -> piece ci b e q i j cs -> piece ci b e' q i j cs.
Proof.
  intros L. destruct 1.
  - constructor; auto. lia.
  - econstructor; eauto. eapply (proj1 (lang_mono _ _ _ _ L)); eauto.
  - econstructor; eauto. eapply (proj1 (lang_mono _ _ _ _ L)); eauto.
  - econstructor; eauto. lia.
  - econstructor; eauto. lia.
Qed.
Lemma pieces_mono ci b e e' l i j cs : e <= e' -> pieces ci b e l i j cs -> pieces ci b e' l i j cs.
Proof. intros L. induction 1; [constructor|]. econstructor; eauto. eapply piece_mono; eauto. Qed.

(** * One pattern *)
(** the prefix, which is the whole pattern *)
Definition pre (c : cpat) : prefix := fst (pop_prefix (compact c)).
(** How a pattern appears in a set: the text [t] of a regular expression with the captures [cs]. *)
Record as_regex_ok (ci : bool) (c : cpat) (t : str) (cs : list capt) (y : compiled) (gs : list (nat * capt)) : Prop := {
  ar_build : build ci t = Some y;
  ar_groups : groups_of (x_names y) cs = Val gs;
  ar_lang b e i j : e <= length b -> i <= e -> lang ci b e (x_re y) i j <-> exists vs, pieces ci b e (parts_of c) i j vs;
  ar_run b e i j g : e <= length b -> i <= e -> run ci b e (x_re y) i no_caps j g ->
    exists vs, pieces ci b e (parts_of c) i j vs /\
      Forall2 (fun rc v => snd rc = fst v /\ text_of b (fst rc) = snd v)
        (capture_spans gs (Some (mkRange i j) :: map g (seq 1 (length (x_names y) - 1)))) vs }.

Lemma shift_0 r : re_shift 0 r = r.
Proof. induction r; cbn [re_shift Nat.add]; congruence. Qed.
Lemma capture_spans_own b i j g n (idx : list nat) (cs : list (capt * str)) : Forall (fun k => 1 <= k <= n) idx ->
  Forall2 (fun c k => exists r, g (0 + k) = Some r /\ snd c = text_of b r) cs idx ->
  Forall2 (fun rc c => snd rc = fst c /\ text_of b (fst rc) = snd c)
    (capture_spans (combine idx (map fst cs)) (Some (mkRange i j) :: map g (seq 1 n))) cs.
Proof.
  intros X Cc. unfold capture_spans.
  induction Cc as [|c k cs ks (r & Hr & Er) Cc IH]; [constructor|]. inversion X as [|? ? Xk X2]; subst. cbn [map combine flat_map].
  assert (G : group_span (Some (mkRange i j) :: map g (seq 1 n)) k = Some r).
  { unfold group_span. destruct k as [|k]; [lia|]. cbn [nth_error]. rewrite nth_error_map, nth_error_nth' with (d := 0) by (rewrite seq_length; lia). rewrite seq_nth by lia. cbn [option_map Nat.add] in *. now rewrite Hr. }
  cbn [fst snd]. rewrite G. cbn [app]. constructor; [split; [reflexivity|now cbn]|]. apply IH. exact X2.
Qed.
(** a list of parts *)
Lemma parts_regex ci c l : parts_of c = l -> Forall (static ci) l -> NoDup (flat_map part_names l) ->
  exists y gs, as_regex_ok ci c (flat_map part_text l) (flat_map part_caps l) y gs.
Proof.
  intros El F D. destruct (statics_ok ci l F) as (ts & n & rs & idx & P).
  exists (mkRx ci (cat rs) (None :: open_names ts)), (combine idx (flat_map part_caps l)).
  pose proof (flat_facts _ _ _ _ (pso_flat _ _ _ _ _ _ P)) as [En _].
  assert (SR : forall b e i j g, e <= length b -> i <= e -> run ci b e (cat rs) i no_caps j g ->
    exists vs, pieces ci b e l i j vs /\ Forall2 (fun rc v => snd rc = fst v /\ text_of b (fst rc) = snd v)
        (capture_spans (combine idx (flat_map part_caps l)) (Some (mkRange i j) :: map g (seq 1 n))) vs).
  { intros b e i j g B L R. assert (R0 : run ci b e (cat (map (re_shift 0) rs)) i no_caps j g). { rewrite (map_ext _ (fun r => r)), map_id; [exact R|]. apply shift_0. }
    destruct (pso_run _ _ _ _ _ _ P b e 0 i no_caps j g B L R0) as (cs & Pc & Ec & Cc). exists cs. split; [exact Pc|]. rewrite <- Ec.
    apply capture_spans_own; [exact (pso_idx _ _ _ _ _ _ P)|exact Cc]. }
  split.
  - unfold build. destruct (pso_flat _ _ _ _ _ _ P) as (L & M & H). rewrite L. unfold parse_tokens. rewrite H.
    assert (Dt : distinct (some_names (open_names ts)) = true) by (apply distinct_nodup; now rewrite (pso_names _ _ _ _ _ _ P)).
    rewrite Dt. unfold alt. cbn [option_map f_alts f_cur fold_left]. now rewrite rev_involutive.
  - apply groups_index; [|exact (pso_own _ _ _ _ _ _ P)]. cbn [x_names]. change (some_names (None :: open_names ts)) with (some_names (open_names ts)). now rewrite (pso_names _ _ _ _ _ _ P).
  - intros b e i j B L. rewrite El. cbn [x_re]. split.
    + intros H. apply (proj1 (lang_run _ _ _)) with (g := no_caps) in H as (h & H). apply SR in H as (vs & H & _); eauto.
    + intros (vs & H). eapply pso_lang; eauto.
  - intros b e i j g B L R. rewrite El. cbn [x_names x_re length] in *. replace (S (length (open_names ts)) - 1) with n by lia. now apply SR with (e := e).
Qed.
Lemma one_regex ci b e t x i j cs : build ci t = Some x -> pieces ci b e [QRegex t] i j cs <-> cs = [] /\ lang ci b e (x_re x) i j.
Proof.
  intros B. split.
  - intros H. inversion H as [|? ? ? k ? c1 c2 P1 P2]; subst. inversion P2; subst. inversion P1 as [|? y ? ? By Ly| | |]; subst. assert (y = x) by congruence. subst y. split; [reflexivity|exact Ly].
  - intros [-> H]. change (@nil (capt * str)) with (@nil (capt * str) ++ []). apply pcs_cons with j; [now apply pc_regex with x|constructor].
Qed.
Lemma regex_regex ci t x : build ci t = Some x -> as_regex_ok ci (PRegex t) t [] x [].
Proof.
  intros B. split.
  - exact B.
  - reflexivity.
  - intros b e i j _ _. cbn [parts_of]. split; [intros H; exists []; now apply (one_regex ci b e t x i j [] B)|]. intros (vs & H). now apply (one_regex ci b e t x i j vs B) in H.
  - intros b e i j g _ _ R. exists []. split; [|constructor]. apply (one_regex ci b e t x i j [] B). split; [easy|]. apply (proj1 (run_lang _ _ _)) in R. exact R.
Qed.

(** * Compilation *)
Lemma escape_literals l : forallb is_literal l = true -> flat_map part_text l = escape (flat_map literal_of l).
Proof.
  induction l as [|q l IH]; [reflexivity|]. cbn [forallb flat_map]. rewrite andb_true_iff. intros [A B]. rewrite escape_app, IH by easy. destruct q; try discriminate. reflexivity.
Qed.
Lemma literal_static ci l : forallb is_literal l = true -> Forall (static ci) l.
Proof. intros H. apply Forall_forall. intros q Hq. rewrite forallb_forall in H. specialize (H q Hq). destruct q; try discriminate. constructor. Qed.
Lemma literal_fold l : forallb is_literal l = true -> forall p, p_lit p = true -> fold_left compact_one l ([], p) = ([], mkPend (p_text p ++ flat_map literal_of l) (p_caps p) true).
Proof.
  induction l as [|q l IH]; intros H p Hp; [cbn; rewrite app_nil_r; destruct p; cbn in *; now subst|]. cbn [forallb] in H. apply andb_true_iff in H as [A B]. cbn [fold_left flat_map].
  destruct q as [s| |]; try discriminate. cbn [compact_one]. rewrite Hp, IH by easy. cbn [p_text p_caps literal_of]. now rewrite app_assoc.
Qed.
Lemma compact_lits l : l <> [] -> forallb is_literal l = true -> compact (PParts l) = KpLit (flat_map literal_of l).
Proof. intros N H. destruct l as [|q l]; [easy|]. unfold compact. rewrite literal_fold by easy. reflexivity. Qed.
(** The compacted form of a pattern *)
Lemma fixed_compact ci c : fixed ci c ->
  compact c = (if only_text c then KpLit (flat_map literal_of (parts_of c)) else KpRegex (flat_map part_text (parts_of c)) (flat_map part_caps (parts_of c))).
Proof.
  destruct c as [|s|s|l]; cbn [fixed]; [easy| | |].
  - intros _. cbn. now rewrite app_nil_r.
  - intros _. cbn. now rewrite app_nil_r.
  - intros (N & F & _). unfold only_text. cbn [parts_of]. destruct (forallb is_literal l) eqn:E; [now apply compact_lits|eapply compact_regex; eauto].
Qed.
Lemma fixed_pre ci c : fixed ci c -> pop_prefix (compact c) = (pre c, KpEmpty) /\
  pre c = if only_text c then FLit (fst (written c)) else FRegex (fst (written c)) (flat_map part_caps (parts_of c)).
Proof.
  intros F. unfold pre. rewrite (fixed_compact ci c F). unfold written. destruct (only_text c); split; reflexivity.
Qed.
Lemma pre_eqb ci c d : fixed ci c -> fixed ci d -> prefix_eqb (pre c) (pre d) = true -> written c = written d.
Proof.
  intros Fc Fd H. rewrite (proj2 (fixed_pre _ _ Fc)), (proj2 (fixed_pre _ _ Fd)) in H. unfold written in *.
  destruct (only_text c), (only_text d); cbn [fst snd prefix_eqb prefix_text] in H.
  - apply str_eqb_eq in H. now rewrite H.
  - destruct (flat_map part_caps (parts_of d)); [|discriminate]. apply str_eqb_eq in H. cbn [prefix_text] in H. now rewrite H.
  - destruct (flat_map part_caps (parts_of c)); [|discriminate]. apply str_eqb_eq in H. cbn [prefix_text] in H. now rewrite H.
  - destruct (flat_map part_caps (parts_of c)), (flat_map part_caps (parts_of d)); try discriminate.
    + apply str_eqb_eq in H. cbn [prefix_text] in H. now rewrite H.
    + apply andb_true_iff in H as [H _]. apply str_eqb_eq in H. now rewrite H.
Qed.
(** ... and as a regular expression *)
Lemma fixed_regex ci c : fixed ci c -> exists y gs, as_regex_ok ci c (fst (into_regex (pre c))) (snd (into_regex (pre c))) y gs.
Proof.
  intros F. rewrite (proj2 (fixed_pre _ _ F)). unfold written. destruct (only_text c) eqn:O; unfold only_text in O.
  - cbn [fst snd into_regex]. rewrite <- escape_literals by easy.
    assert (E : flat_map part_caps (parts_of c) = []).
    { clear F. induction (parts_of c) as [|q l IH]; [easy|]. cbn [forallb] in O. apply andb_true_iff in O as [A B]. cbn [flat_map]. rewrite IH by easy. destruct q; try discriminate. reflexivity. }
    rewrite <- E. apply parts_regex; [reflexivity|now apply literal_static|].
    clear F E. replace (flat_map part_names (parts_of c)) with (@nil str); [constructor|]. induction (parts_of c) as [|q l IH]; [easy|]. cbn [forallb] in O. apply andb_true_iff in O as [A B]. cbn [flat_map]. rewrite <- IH by easy. destruct q; try discriminate. reflexivity.
  - cbn [fst snd into_regex]. destruct c as [|s|s|l]; [easy|discriminate| |].
    + destruct F as (x & Bx). exists x, []. cbn [parts_of flat_map part_text part_caps app]. rewrite app_nil_r. now apply regex_regex.
    + destruct F as (N & Fs & D & _). now apply parts_regex.
Qed.

Section Compile.
Context (E : engine) (T : set_engine) (ci strict : bool).
Notation always c := [(sp_at c, sp_line c, MAlways E)].
Lemma group_fixed l : Forall (fun c => fixed ci (sp_pat c)) l -> NoDup (map (fun c => written (sp_pat c)) l) ->
  forall id unique ps ss, (forall c u, In c l -> In u unique -> prefix_eqb (pre (sp_pat c)) (fst u) = false) ->
  group_prefixes E ci strict id l unique ps ss =
  Val (ps ++ map (fun c => (c, pre (sp_pat c))) l, ss ++ map (fun c => always c) l).
Proof.
  induction 1 as [|c l Fc F IH]; intros D id unique ps ss U; [cbn; now rewrite !app_nil_r|].
  cbn [group_prefixes]. destruct (fixed_pre _ _ Fc) as [-> Ep].
  assert (Fn : find_prefix (pre (sp_pat c)) unique = None).
  { unfold find_prefix. destruct (find _ unique) as [u|] eqn:Fu; [|reflexivity]. apply find_some in Fu as [Iu Eu]. rewrite U in Eu; [discriminate|now left|easy]. }
  rewrite Fn. assert (Ne : not_empty (pre (sp_pat c)) = true) by (rewrite Ep; now destruct (only_text _)).
  rewrite Ne. cbn [compile_suffix bind]. cbn [map] in D. inversion D as [|? ? Nc D2]; subst.
  rewrite IH; auto.
  - cbn [map]. now rewrite <- !app_assoc.
  - intros d u Id Iu. apply in_app_iff in Iu as [Iu|[<-|[]]]; [apply U; [now right|easy]|]. cbn [fst].
    apply not_true_is_false. intros H. rewrite Forall_forall in F. apply (pre_eqb ci) in H; auto. apply Nc. rewrite <- H. now apply (in_map (fun c => written (sp_pat c))).
Qed.
Lemma always_single l : forallb (forallb (is_always E)) (map (fun c => always c) l) = true.
Proof. induction l; cbn; auto. Qed.
Lemma pre_lit c : fixed ci c -> is_lit (pre c) = only_text c.
Proof. intros F. rewrite (proj2 (fixed_pre _ _ F)). now destruct (only_text c). Qed.
Lemma pre_sub c : fixed ci c -> is_sub (pre c) = only_text c.
Proof. intros F. rewrite (proj2 (fixed_pre _ _ F)). now destruct (only_text c). Qed.
Lemma pre_regex c : fixed ci c -> is_regex (pre c) = true.
Proof. intros F. rewrite (proj2 (fixed_pre _ _ F)). now destruct (only_text c). Qed.
Lemma forallb_pre (f : prefix -> bool) (g : cpat -> bool) l : Forall (fun c => fixed ci (sp_pat c)) l -> (forall c, fixed ci c -> f (pre c) = g c) ->
  forallb (fun p => f (snd p)) (map (fun c => (c, pre (sp_pat c))) l) = forallb (fun c => g (sp_pat c)) l.
Proof. intros F H. induction F as [|c l Fc F IH]; [reflexivity|]. cbn [map forallb snd]. now rewrite IH, H. Qed.
(** literals only *)
Lemma compile_texts l : Forall (fun c => fixed ci (sp_pat c)) l -> NoDup (map (fun c => written (sp_pat c)) l) ->
  forallb (fun c => only_text (sp_pat c)) l = true ->
  compile_set E T ci strict l = (do ls <- new_lits strict (map (fun c => (sp_at c, fst (written (sp_pat c)))) l); Val (SLit E T ls)).
Proof.
  intros F D A. unfold compile_set. rewrite group_fixed; [|easy|easy|now intros]. cbn [app bind].
  rewrite (forallb_pre is_lit only_text), A, always_single by (auto using pre_lit). do 2 f_equal.
  rewrite map_map. cbn [fst snd]. clear D. induction F as [|c l Fc F IH]; [reflexivity|]. cbn [forallb] in A. apply andb_true_iff in A as [A1 A2]. cbn [map]. rewrite IH by easy. do 2 f_equal.
  rewrite (proj2 (fixed_pre _ _ Fc)), A1. reflexivity.
Qed.
(** a regular expression among the patterns *)
Lemma compile_regexes l : Forall (fun c => fixed ci (sp_pat c)) l -> NoDup (map (fun c => written (sp_pat c)) l) ->
  forallb (fun c => only_text (sp_pat c)) l = false ->
  compile_set E T ci strict l = (do m <- new_rmatcher T ci (map (fun c => into_regex (pre (sp_pat c))) l); Val (SRegex E T (map sp_at l) m)).
Proof.
  intros F D A. unfold compile_set. rewrite group_fixed; [|easy|easy|now intros]. cbn [app bind].
  rewrite (forallb_pre is_lit only_text), A by (auto using pre_lit).
  rewrite (forallb_pre is_sub only_text), A by (auto using pre_sub).
  rewrite (forallb_pre is_regex (fun _ => true)) by (auto using pre_regex).
  replace (forallb (fun _ => true) l) with true by (symmetry; apply forallb_forall; easy). rewrite always_single, !map_map. reflexivity.
Qed.
End Compile.

(** * The set of regular expressions *)
Lemma build_all_spec ci (l : list cpat) : Forall (fixed ci) l -> exists xs, build_all ci (map (fun c => fst (into_regex (pre c))) l) = Some xs /\
  Forall2 (fun c y => exists gs, as_regex_ok ci c (fst (into_regex (pre c))) (snd (into_regex (pre c))) y gs) l xs.
Proof.
  induction 1 as [|c l Fc F (xs & B & H)]; [exists []; split; [reflexivity|constructor]|].
  destruct (fixed_regex _ _ Fc) as (y & gs & A). exists (y :: xs). cbn [map build_all]. rewrite (ar_build _ _ _ _ _ _ A), B. split; [reflexivity|]. constructor; eauto.
Qed.
Lemma Forall2_nth {A B} (P : A -> B -> Prop) l m k a : Forall2 P l m -> nth_error l k = Some a -> exists b, nth_error m k = Some b /\ P a b.
Proof. intros F. revert k. induction F; intros [|k] H0; try discriminate; cbn in *; [injection H0 as <-; eauto|eauto]. Qed.
Lemma Forall2_nth_r {A B} (P : A -> B -> Prop) l m k b : Forall2 P l m -> nth_error m k = Some b -> exists a, nth_error l k = Some a /\ P a b.
Proof. intros F. revert k. induction F; intros [|k] H0; try discriminate; cbn in *; [injection H0 as <-; eauto|eauto]. Qed.

Section Set_.
Context (T : set_engine) (OK : set_ok T) (ci : bool).
Context (l : list spat) (F : Forall (fun c => fixed ci (sp_pat c)) l).
Notation texts := (map (fun c => into_regex (pre (sp_pat c))) l).
Lemma set_defs_spec x xs : build_all ci (map fst texts) = Some xs -> rs_build T ci (map fst texts) = Some x ->
  Forall2 (fun c y => exists gs, as_regex_ok ci (sp_pat c) (fst (into_regex (pre (sp_pat c)))) (snd (into_regex (pre (sp_pat c)))) y gs) l xs ->
  exists defs, set_defs T x 0 texts = Val defs /\ forall k c y, nth_error l k = Some c -> nth_error xs k = Some y ->
    as_regex_ok ci (sp_pat c) (fst (into_regex (pre (sp_pat c)))) (snd (into_regex (pre (sp_pat c)))) y (nth k defs []).
Proof.
  intros B R H.
  assert (G : forall l' xs' base, (forall k y, nth_error xs' k = Some y -> nth_error xs (base + k) = Some y) ->
    Forall2 (fun c y => exists gs, as_regex_ok ci (sp_pat c) (fst (into_regex (pre (sp_pat c)))) (snd (into_regex (pre (sp_pat c)))) y gs) l' xs' ->
    exists defs, set_defs T x base (map (fun c => into_regex (pre (sp_pat c))) l') = Val defs /\ forall k c y, nth_error l' k = Some c -> nth_error xs' k = Some y ->
      as_regex_ok ci (sp_pat c) (fst (into_regex (pre (sp_pat c)))) (snd (into_regex (pre (sp_pat c)))) y (nth k defs [])).
  { intros l' xs' base K H'. revert base K. induction H' as [|c y l' xs' (gs & A) H' IH]; intros base K.
    - exists []. split; [reflexivity|]. intros [|k] c y; discriminate.
    - assert (Ky : nth_error xs base = Some y) by (rewrite <- (Nat.add_0_r base); apply K; reflexivity).
      destruct (IH (S base)) as (defs & Ed & Hd). { intros k z Hk. replace (S base + k) with (base + S k) by lia. now apply K. }
      exists (gs :: defs). split.
      + cbn [map set_defs]. destruct (into_regex (pre (sp_pat c))) as [t cs] eqn:Et. cbn [fst snd] in A.
        rewrite (so_names T OK ci _ xs x base y B R Ky), (ar_groups _ _ _ _ _ _ A). cbn [bind]. now rewrite Ed.
      + intros [|k] c0 y0; cbn [nth_error nth]; [intros [= <-] [= <-]; exact A|]. apply Hd. }
  apply G; auto.
Qed.

(** What a match that is reported stands for *)
Inductive item_for (b : bytes) (s e : nat) (ats : list nat) : nat * range -> item -> Prop :=
| if_found k c i j j' cs vs : nth_error l k = Some c -> s <= i -> j' <= j -> matches_at ci b e (sp_pat c) i j' cs -> values_for cs vs ->
    item_for b s e ats (k, mkRange i j) (found_at (mkRange i j') k (sp_at c), vs)
| if_bad k c i j j' cs : nth_error l k = Some c -> s <= i -> matches_at ci b e (sp_pat c) i j' cs -> ~ (exists vs, values_for cs vs) ->
    item_for b s e ats (k, mkRange i j) (failed (EMatch true), []).
Lemma rmatcher_spec m : new_rmatcher T ci texts = Val m ->
  forall b s e, s <= e -> e <= length b ->
  (forall k i j, In (k, mkRange i j) (rs_matches T (rm_set T m) b (mkRange s e)) <->
     exists c cs, nth_error l k = Some c /\ s <= i /\ matches_at ci b e (sp_pat c) i j cs) /\
  StronglySorted by_end (rs_matches T (rm_set T m) b (mkRange s e)) /\
  (forall h, In h (rs_matches T (rm_set T m) b (mkRange s e)) -> exists x, regex_item T b (map sp_at l) m h = Val x /\ item_for b s e (map sp_at l) h x).
Proof.
  unfold new_rmatcher. destruct (rs_build T ci (map fst texts)) as [x|] eqn:R; [|discriminate].
  assert (F' : Forall (fixed ci) (map sp_pat l)) by (apply Forall_map; exact F).
  destruct (build_all_spec ci _ F') as (xs & B & H). rewrite map_map in B.
  replace (map (fun c => fst (into_regex (pre (sp_pat c)))) l) with (map fst texts) in B by (now rewrite map_map).
  assert (H' : Forall2 (fun c y => exists gs, as_regex_ok ci (sp_pat c) (fst (into_regex (pre (sp_pat c)))) (snd (into_regex (pre (sp_pat c)))) y gs) l xs).
  { clear -H. remember (map sp_pat l) as l' eqn:El. revert l El. induction H; intros [|d l0] El; try discriminate; [constructor|]. cbn in El. injection El as -> ->. constructor; auto. }
  clear H. destruct (set_defs_spec x xs B R H') as (defs & Ed & Hd).
  intros Em b s e L Le.
  assert (Em' : rm_set T m = x /\ (rm_defs T m = Some defs \/ (rm_defs T m = None /\ Forall (fun p => snd p = []) texts))).
  { destruct (forallb _ texts) eqn:Fa.
    - injection Em as <-. split; [reflexivity|]. right. split; [reflexivity|]. rewrite forallb_forall in Fa. apply Forall_forall. intros p Ip. specialize (Fa p Ip). now destruct (snd p).
    - rewrite Ed in Em. cbn [bind] in Em. injection Em as <-. split; [reflexivity|now left]. }
  destruct Em' as [Er Em']. rewrite Er. clear Em.
  assert (M : forall k i j, In (k, mkRange i j) (rs_matches T x b (mkRange s e)) <->
     exists c cs, nth_error l k = Some c /\ s <= i /\ matches_at ci b e (sp_pat c) i j cs).
  { intros k i j. rewrite (so_matches T OK ci _ xs x b s e k i j B R L Le). split.
    - intros (y & Ny & Li & Hl). destruct (Forall2_nth_r _ _ _ _ _ H' Ny) as (c & Nc & gs & A). destruct (proj1 (ar_lang _ _ _ _ _ _ A b e i j Le (proj2 Li)) Hl) as (vs & Hv). exists c, vs. unfold matches_at. splits; auto; lia.
    - intros (c & cs & Nc & Ls & Li & Hl). destruct (Forall2_nth _ _ _ _ _ H' Nc) as (y & Ny & gs & A). exists y. splits; auto. apply (ar_lang _ _ _ _ _ _ A); eauto. }
  splits; [exact M|exact (so_order T OK ci _ xs x b _ B R)|].
  intros [k [i j]] Hh. pose proof Hh as Hin. apply M in Hh as (c & cs & Nc & Ls & Li & Hp). unfold regex_item.
  assert (Na : nth k (map sp_at l) 0 = sp_at c). { apply nth_error_nth with (d := 0). now rewrite nth_error_map, Nc. }
  destruct (Forall2_nth _ _ _ _ _ H' Nc) as (y & Ny & gs0 & A0). pose proof (Hd k c y Nc Ny) as A.
  assert (Lj : j <= e). { assert (Hl : lang ci b e (x_re y) i j) by (apply (ar_lang _ _ _ _ _ _ A); eauto). apply (proj1 (lang_bounds _ _ _)) in Hl as [_ Hl]. auto. }
  assert (Lij : i <= j). { assert (Hl : lang ci b e (x_re y) i j) by (apply (ar_lang _ _ _ _ _ _ A); eauto). now apply (proj1 (lang_bounds _ _ _)) in Hl as [Hl _]. }
  rewrite Er. destruct Em' as [->|[-> Nocap]].
  - destruct (so_groups T OK ci _ xs x b (mkRange s e) k i j y B R Ny Le Hin) as (j' & g & Lj' & Rn & ->).
    destruct (ar_run _ _ _ _ _ _ A b j i j' g) as (vs0 & Pv & F2); [lia|lia|exact Rn|].
    assert (Pv' : matches_at ci b e (sp_pat c) i j' vs0) by (split; [easy|eapply pieces_mono; eauto]).
    destruct (convert_groups_spec b _ _ F2) as [V1 V2]. destruct (convert_groups b _) as [vs|].
    + eexists. split; [reflexivity|]. rewrite Na. eapply if_found; eauto.
    + eexists. split; [reflexivity|]. eapply if_bad; eauto.
  - eexists. split; [reflexivity|]. rewrite Na.
    assert (Ec : snd (into_regex (pre (sp_pat c))) = []). { rewrite Forall_forall in Nocap. apply Nocap. apply in_map with (f := fun c => into_regex (pre (sp_pat c))). now apply nth_error_In with k. }
    assert (Hl : lang ci b e (x_re y) i j) by (apply (ar_lang _ _ _ _ _ _ A); eauto).
    apply (proj1 (lang_run _ _ _)) with (g := no_caps) in Hl as (h & Hr). destruct (ar_run _ _ _ _ _ _ A b e i j h Le Li Hr) as (vs0 & Pv & F2).
    pose proof (ar_groups _ _ _ _ _ _ A) as G. rewrite Ec in G. cbn in G. injection G as G. rewrite <- G in F2. cbn in F2. inversion F2; subst.
    apply if_found with (cs := []); auto; [split; auto|constructor].
Qed.
End Set_.
