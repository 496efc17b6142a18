(** Properties of patterns with substitutions (C70, C71, C72). *)
From Coq Require Import String.
From Verif Require Import Base Text_Model Cursor_Model Check_Model Lit_Model Lit_Spec Env_Model Num_Model Num_Spec Num_Proofs Gram_Model Sum_Spec Parse_Model
  Regex_Model Regex_Spec Regex_Proofs Regex_Engine Regex_Frame Smart_Model Smart_Spec Smart_Static Smart_Parts Smart_Props Chain_Spec Chain_Proofs Chain_Search Chain_Fixed.
From Verif Require Lit_Proofs.
Open Scope string_scope.
Open Scope list_scope.
Open Scope nat_scope.
Ltac splits := repeat match goal with |- _ /\ _ => split end.

Lemma dynamic_compiled ci strict l m : existsb is_dynamic l = true -> compile_pattern ascii_engine ci strict (PParts l) = Val m ->
  exists ops, m = MSmart ascii_engine ops /\ lower_parts ascii_engine ci strict (segments nothing_pending l) = Val ops.
Proof.
  intros D C. unfold compile_pattern in C. rewrite (compact_dynamic l D) in C. destruct (lower_parts _ _ _ _) as [ops| |]; try discriminate. cbn [bind] in C. injection C as <-. eauto.
Qed.

(** C70: what the search for a pattern with substitutions finds is a text that has one piece for every part,
    one after the other, the variables being those that the parts before it leave; they are left as the
    last part leaves them. *)
Theorem substitutions_linked : forall ci strict fuel l m b line at_ s e env0 r,
  existsb is_dynamic l = true -> Forall (compilable ci strict) l ->
  compile_pattern ascii_engine ci strict (PParts l) = Val m -> s <= e -> e <= List.length b ->
  try_match ascii_engine ci fuel b line at_ m (mkRange s e) env0 = Some (Val r) ->
  chain_outcome ci b line l s e at_ env0 r.
Proof.
  intros ci strict fuel l m b line at_ s e env0 r D Cl C Ls Le H. destruct (dynamic_compiled _ _ _ _ D C) as (ops & -> & Lo).
  cbn [try_match] in H. unfold smart_match in H. destruct ops as [|o rest]; [discriminate|]. cbn [rstart rend] in H.
  destruct (search_rounds _ _ _ _ _ _ _ _ _ _ _ _) as [x|] eqn:S; [|discriminate]. injection H as H. destruct x as [h| |]; try discriminate. cbn [bind] in H. injection H as <-.
  destruct h as [[sp m]|]; cbn [smart_result]; [|apply co_none]. destruct (forallb _ (x_got m)) eqn:G; [|apply co_bad].
  pose proof (segments_ok ci strict l _ _ Cl Lo) as Ok. inversion Ok as [|? ? Oo _]; subst.
  apply rounds_go in S as (A1 & A2 & Gs); auto.
  assert (Gd : good_got b m). { intros q c Hq. rewrite forallb_forall in G. specialize (G _ Hq). cbn [fst snd] in G. destruct (convert _ _); [eauto|discriminate]. }
  destruct (chain_go ci strict fuel b line e Le l nothing_pending [] _ _ _ _ _ (stands_nil ci) (Forall_nil _) Cl Lo Gs A2 Gd) as (F & Lk & Sm & _ & B). cbn [app Smart_Model.x_env] in Lk.
  destruct sp as [i j]. cbn [rstart rend] in *. apply co_found with F; auto; lia.
Qed.
Print Assumptions substitutions_linked.

(** C71: a search does not end only if it reaches the end of the buffer and the first parts of the pattern take
    the empty text there; then it never does. *)
Lemma first_empty ci strict l : forall p lp o rest fuel b line e env0 m, stands ci p lp -> Forall (compilable ci strict) l -> e <= List.length b ->
  lower_parts ascii_engine ci strict (segments p l) = Val (o :: rest) ->
  match_part ascii_engine ci fuel b line o (mkRange e e) false (mkMach [] [] env0) = Val (Some (mkRange e e, m)) ->
  exists l1 l2, lp ++ l = l1 ++ l2 /\ l1 <> [] /\ ((exists cs, pieces ci b e l1 e e cs) \/ exists F, linked ci b e line l1 env0 e e F).
Proof.
  assert (Pend : forall p lp o rest fuel b line e env0 m, stands ci p lp -> e <= List.length b -> lower_parts ascii_engine ci strict (pending_part p) = Val (o :: rest) ->
    match_part ascii_engine ci fuel b line o (mkRange e e) false (mkMach [] [] env0) = Val (Some (mkRange e e, m)) -> lp <> [] /\ exists cs, pieces ci b e lp e e cs).
  { intros p lp o rest fuel b line e env0 m (Ss & T & Cs & Li) Le H P. unfold pending_part in H. destruct (p_text p) as [|c0 s0] eqn:Pt; [discriminate|]. rewrite <- Pt in H. cbn [lower_parts] in H. destruct (p_lit p) eqn:Lt; cbn [lower_part] in H.
    - unfold literal_text in H. destruct (assert _); try discriminate. cbn [bind app] in H. injection H as <- <-. cbn [match_part rstart rend] in P. rewrite Nat.sub_diag in P. discriminate.
    - destruct (regex_ops ascii_engine ci (p_text p) (p_caps p)) as [a| |] eqn:R; try discriminate. cbn [bind] in H. rewrite app_nil_r in H. injection H as ->.
      unfold as_regex in T. rewrite Lt in T. rewrite T, Cs in R. destruct (statics_ok ci lp Ss) as (ts & n & rs & idx & Po). unfold regex_ops, regex_of in R. cbn [rx_build ascii_engine] in R.
      destruct (build ci (flat_map part_text lp)) as [x|] eqn:B; [|discriminate]. cbn [bind] in R. pose proof (build_proper _ _ _ B) as [Px Cx]. destruct (static_built _ _ _ _ _ _ _ Po B) as (Ex & _ & _).
      destruct (groups_of _ _) as [gs| |]; try discriminate. cbn [bind] in R. injection R as <- _. cbn [match_part rx_search ascii_engine] in P.
      destruct (re_search x b (mkRange e e) false) as [lg|] eqn:Se; [|discriminate]. apply search_some in Se as (i & j & g & -> & L2 & _ & Rn & _); [|exact Px]. injection P as -> -> _. cbn [rend] in Rn. rewrite Cx, Ex in Rn. cbn [x_re] in Rn.
      assert (R0 : run ci b e (cat (map (re_shift 0) rs)) e no_caps e g). { rewrite (map_ext _ (fun r => r)), map_id; [exact Rn|]. clear. intros r. induction r; cbn [re_shift Nat.add]; congruence. }
      destruct (pso_run _ _ _ _ _ _ Po b e 0 e no_caps e g Le (le_n _) R0) as (cs & Pc & _ & _). split; [|eauto]. intros ->. cbn in T. rewrite T in Pt. discriminate. }
  induction l as [|q l IH]; intros p lp o rest fuel b line e env0 m St Cl Le H P; cbn [segments] in H.
  - destruct (Pend _ _ _ _ _ _ _ _ _ _ St Le H P) as (N & Pc). exists lp, []. splits; auto.
  - inversion Cl as [|? ? Cq Cl2]; subst. destruct (is_dynamic q) eqn:D.
    + apply lower_app in H as (o1 & o2 & H1 & H2 & Eo). destruct o1 as [|o' r1].
      * cbn [app] in Eo. subst o2. apply lower_app in H2 as (o3 & o4 & H2 & H3 & Eo).
        assert (Et : flat_map part_text lp = []).
        { destruct St as (_ & T & _ & _). rewrite <- T. unfold pending_part in H1. unfold as_regex. destruct (p_text p) as [|c0 s0]; [now destruct (p_lit p)|]. exfalso. cbn [lower_parts] in H1. destruct (p_lit p); cbn [lower_part] in H1.
          - unfold literal_text in H1. destruct (assert _); discriminate.
          - unfold regex_ops in H1. destruct (regex_of _ _ _); try discriminate. cbn [bind] in H1. destruct (groups_of _ _); discriminate. }
        assert (Lp : linked ci b e line lp env0 e e env0) by (apply empty_go; auto; exact (proj1 St)). exists (lp ++ [q]), l. splits; [now rewrite <- app_assoc|intros Z; apply app_eq_nil in Z as [_ Z]; discriminate|]. right.
        inversion Cq as [? Sq _ _|? f x Su|f v x Cm Id]; subst; [rewrite (static_not_dynamic _ _ Sq) in D; discriminate|..].
        -- assert (Ex : exists ty, o3 = [OSub ascii_engine x ty] /\ (match ty with Some g => g | None => None end) = f) by (destruct Su; cbn in H2; injection H2 as <-; eexists; split; reflexivity).
           destruct Ex as (ty & -> & Ty). cbn [app] in Eo. injection Eo as -> ->.
           assert (Ok : op_ok (OSub ascii_engine x ty)) by exact I. destruct (found_stands ci fuel b line e Le _ e _ _ _ Ok (le_n _) P) as (P2 & _ & _). cbn [rstart] in P2.
           destruct (sub_go ci fuel b line e Le q f x ty e _ _ _ [] e env0 Su Ty (le_n _) P2) as (_ & _ & Lk). exists env0. eapply linked_app; [exact Lp|]. apply Lk. constructor.
        -- cbn in H2. injection H2 as <-. cbn [app] in Eo. injection Eo as -> ->. cbn [match_part] in P. unfold slice in P. cbn [rstart rend] in P. rewrite Nat.sub_diag in P. destruct (_ && _)%bool; discriminate.
      * cbn [app] in Eo. injection Eo as <- _. destruct (Pend _ _ _ _ _ _ _ _ _ _ St Le H1 P) as (N & Pc). exists lp, (q :: l). splits; auto.
    + assert (Sq : static ci q). { inversion Cq as [? Sq _ _|? f x Su|]; subst; [easy|destruct Su; discriminate|discriminate]. }
      destruct (IH _ (lp ++ [q]) o rest fuel b line e env0 m (stands_snoc ci p lp q St Sq) Cl2 Le H P) as (l1 & l2 & E & N & Pc). exists l1, l2. rewrite <- app_assoc in E. auto.
Qed.
Theorem search_ends : forall ci strict fuel l m b line at_ s e env0,
  existsb is_dynamic l = true -> Forall (compilable ci strict) l ->
  compile_pattern ascii_engine ci strict (PParts l) = Val m -> s <= e -> e <= List.length b ->
  try_match ascii_engine ci fuel b line at_ m (mkRange s e) env0 = None ->
  e = List.length b /\ exists l1 l2, l = l1 ++ l2 /\ l1 <> [] /\ ((exists cs, pieces ci b e l1 e e cs) \/ exists F, linked ci b e line l1 env0 e e F).
Proof.
  intros ci strict fuel l m b line at_ s e env0 D Cl C Ls Le H. destruct (dynamic_compiled _ _ _ _ D C) as (ops & -> & Lo).
  cbn [try_match] in H. unfold smart_match in H. destruct ops as [|o rest]; [discriminate|]. cbn [rstart rend] in H. destruct (search_rounds _ _ _ _ _ _ _ _ _ _ _ _) as [x|] eqn:S; [discriminate|].
  pose proof (segments_ok ci strict l _ _ Cl Lo) as Ok. inversion Ok as [|? ? Oo _]; subst. unfold smart_rounds in S.
  apply (rounds_stuck ci fuel b line e Le o rest (List.length b) Oo s env0) in S as (Ee & r & m1 & P & ->); [|lia..]. split; [exact Ee|]. exact (first_empty ci strict l _ [] _ _ _ _ _ _ _ _ (stands_nil ci) Cl Le Lo P).
Qed.
Print Assumptions search_ends.
(** ... so a search that stops before the end of the buffer ends, and so does one for a pattern that begins with
    a text *)
Corollary search_ends_before : forall ci strict fuel l m b line at_ s e env0,
  existsb is_dynamic l = true -> Forall (compilable ci strict) l ->
  compile_pattern ascii_engine ci strict (PParts l) = Val m -> s <= e -> e <= List.length b ->
  e < List.length b \/ (exists t l', l = QLit t :: l' /\ t <> []) ->
  try_match ascii_engine ci fuel b line at_ m (mkRange s e) env0 <> None.
Proof.
  intros ci strict fuel l m b line at_ s e env0 D Cl C Ls Le X H. destruct (search_ends _ _ _ _ _ _ _ _ _ _ _ D Cl C Ls Le H) as (Ee & l1 & l2 & E & N & P). destruct X as [X|(t & l' & -> & Nt)]; [lia|].
  destruct l1 as [|q l1]; [easy|]. cbn [app] in E. injection E as <- E.
  assert (B : forall l i j cs, pieces ci b e l i j cs -> i <= e -> i <= j /\ j <= e).
  { clear. induction 1 as [|q l i k j cs ds P Ps IH]; [lia|]. intros L. assert (i <= k /\ k <= e); [|lia]. destruct P; try lia; apply (proj1 (lang_bounds _ _ _)) in H0 as [? ?]; auto. }
  assert (B2 : forall l E0 i j F, linked ci b e line l E0 i j F -> i <= e -> i <= j /\ j <= e).
  { clear. induction 1 as [|q l E i k j cs vs F P K L IH|q f x z g l E i j F S0 T G G2 Le At L IH|q f v n s x l E i k j F S0 N T B0 Lg L IH|f v x z l E i k j F t A B0 I0 Fa P L IH]; intros Li; try lia.
    - assert (i <= k /\ k <= e); [|lia]. destruct P; try lia; apply (proj1 (lang_bounds _ _ _)) in H0 as [? ?]; auto.
    - apply (proj1 (lang_bounds _ _ _)) in Lg as [? ?]; auto. lia. }
  destruct P as [(cs & P)|(F & P)].
  - inversion P as [|? ? ? k ? ? ? P1 P2]; subst. inversion P1; subst. apply B in P2; [|lia]. destruct t; [easy|]. cbn in P2. lia.
  - inversion P as [|? ? ? ? k ? ? ? ? P1 K P2|? ? ? ? ? ? ? ? ? ? S0|? ? ? ? ? ? ? ? ? ? ? ? S0|]; subst; try (now inversion S0). inversion P1; subst. apply B2 in P2; [|lia]. destruct t; [easy|]. cbn in P2. lia.
Qed.
Print Assumptions search_ends_before.
(** The search of the model stops after a number of rounds: if it does so without a result, no number of rounds
    is enough. *)
Theorem search_unending : forall ci fuel b line e o rest s env0, s <= e -> e <= List.length b ->
  search_rounds ascii_engine ci fuel b line (smart_rounds b) o rest s e false env0 = None ->
  forall n, search_rounds ascii_engine ci fuel b line n o rest s e false env0 = None.
Proof. intros ci fuel b line e o rest s env0 Ls Le H n. apply (rounds_enough ci fuel b line e Le o rest (List.length b)); auto; lia. Qed.
Print Assumptions search_unending.

(** C72: a pattern of texts and of variables with known texts is found where it stands if that is where its
    first text occurs for the first time. *)
Theorem fixed_text_found : forall ci strict fuel t v l u b line at_ s e env0 i m, 2 <= fuel ->
  fixed strict env0 (QLit t :: QMatch (MSubst v None) :: l) u ->
  compile_pattern ascii_engine ci strict (PParts (QLit t :: QMatch (MSubst v None) :: l)) = Val m ->
  s <= i -> i + List.length u <= e -> e <= List.length b -> text_at ci b u i ->
  (forall k, s <= k < i -> ~ text_at ci b t k) ->
  try_match ascii_engine ci fuel b line at_ m (mkRange s e) env0 = Some (Val (mkRes Good (Some (mkInfo (mkRange i (i + List.length u)) 0 at_)), env0)).
Proof.
  intros ci strict fuel t v l u b line at_ s e env0 i m F Fx C Ls Li Le T First.
  destruct (dynamic_compiled ci strict (QLit t :: QMatch (MSubst v None) :: l) m eq_refl C) as (ops & -> & Lo).
  assert (Fx2 : exists u2, u = t ++ u2 /\ plain_literal strict t /\ fixed strict env0 (QMatch (MSubst v None) :: l) u2) by (inversion Fx; subst; eauto). destruct Fx2 as (u2 & -> & Pt & Fx2).
  cbn [segments is_dynamic compact_one nothing_pending snd p_lit p_text p_caps app] in Lo. unfold pending_part in Lo. cbn [p_text p_lit] in Lo. pose proof Pt as (Ne & Tb & A). destruct t as [|c0 t0] eqn:Et; [easy|]. rewrite <- Et in *. cbn [app] in Lo.
  assert (Fx3 : exists w u3, u2 = w ++ u3 /\ plain_value env0 v w /\ fixed strict env0 l u3) by (inversion Fx2; subst; eauto). destruct Fx3 as (w & u3 & -> & Pw & Fx3).
  destruct (fixed_go ci strict fuel b line e Le env0 _ _ Fx3 F nothing_pending eq_refl (or_introl eq_refl)) as (o3 & L3 & G3). cbn [nothing_pending p_text app] in G3.
  cbn [lower_parts lower_part lower_match] in Lo. fold (lower_parts ascii_engine ci strict) in Lo. rewrite L3 in Lo. unfold literal_text in Lo. rewrite canonical_same in Lo by easy.
  assert (An : assert (nonempty t) = Val tt) by (rewrite Et; reflexivity). rewrite An in Lo. cbn [bind app] in Lo. injection Lo as <-.
  cbn [try_match]. unfold smart_match, smart_rounds. cbn [rstart rend]. cbn [search_rounds match_part rstart rend].
  apply text_at_app in T as [T1 T2]. rewrite app_length in Li. apply text_at_app in T2 as [T2 T3]. rewrite app_length in Li.
  pose proof (Lit_Proofs.leftmost_spec ci b (mkLit c0 t0 0) e (e - s) s ltac:(lia)) as Lm. unfold lit_text in Lm. cbn [lit_hd lit_tl] in Lm. rewrite <- Et in Lm.
  assert (Occ : occurrence ci b (mkLit c0 t0 0) s e i) by (unfold occurrence, lit_text; cbn [lit_hd lit_tl]; rewrite <- Et; splits; auto; lia).
  destruct (leftmost ci b t e (e - s) s) as [k|]; [|now destruct (Lm i)]. destruct Lm as [(K1 & K2 & K3) Lm]. unfold lit_text in K2, K3. cbn [lit_hd lit_tl] in K2, K3. rewrite <- Et in K2, K3. pose proof (Lm i Occ) as Ki. assert (k = i) as -> by (destruct (Nat.eq_dec k i); [easy|exfalso; apply (First k); [lia|exact K3]]).
  cbn [rend rstart match_parts]. destruct (Nat.leb_spec e (i + List.length t)) as [X|X].
  { exfalso. destruct (plain_found ci fuel b line e Le env0 v w (i + List.length t) (mkMach [] [] env0) Pw F ltac:(lia) T2 eq_refl) as [Nw _]. destruct w; [easy|]. cbn in Li. lia. }
  destruct (plain_found ci fuel b line e Le env0 v w (i + List.length t) (mkMach [] [] env0) Pw F ltac:(lia) T2 eq_refl) as [Nw Pa]. rewrite Pa. cbn [bind rend].
  rewrite G3; [|reflexivity|lia|easy]. cbn [bind smart_result x_got forallb Smart_Model.x_env]. rewrite !app_length, !Nat.add_assoc. reflexivity.
Qed.
Print Assumptions fixed_text_found.

(** ... and it is found nowhere else than where its text stands; no variable changes. *)
Lemma fixed_linked ci strict b e line E l u : fixed strict E l u -> e <= List.length b -> forall i j F, i <= e -> linked ci b e line l E i j F ->
  j = i + List.length u /\ text_at ci b u i /\ F = E.
Proof.
  intros H Be. induction H as [|t l u P H IH|v t l u P H IH]; intros i j F Li L.
  - inversion L; subst. splits; [cbn; lia|intros k x K; destruct k; discriminate|reflexivity].
  - inversion L as [|? ? ? ? k ? cs vs ? P1 K L2|? ? ? ? ? ? ? ? ? ? S0|? ? ? ? ? ? ? ? ? ? ? ? S0|]; subst; try (now inversion S0). inversion P1; subst. inversion K; subst. unfold defined in L2. cbn [fold_left] in L2.
    apply IH in L2 as (-> & T & ->); [|lia]. splits; [rewrite app_length; lia|now apply text_at_app|reflexivity].
  - assert (Name : forall w n m, env_name w n -> env_name w m -> n = m) by (intros w n m A B; destruct A; inversion B; auto).
    assert (Got : exists k, linked ci b e line l E k j F /\ k = i + List.length t /\ text_at ci b t i /\ k <= e).
    { inversion L as [|? ? ? ? k ? cs vs ? P1 K L2|? f x z g ? ? ? ? ? S0 T G G2 Le At L2|? f w n s x ? ? ? k ? ? S0 N T B0 Lg L2|]; subst.
      - inversion P1.
      - inversion S0; subst. destruct (G2 eq_refl) as (d & Hd & Fd).
        destruct P as [v n t N V Ne Sp|v n k N V].
        + exfalso. inversion T as [|? ? Bv|]; subst. destruct N; unfold bound in Bv; destruct Bv as (d' & E1 & _); congruence.
        + assert (z = nvalue k /\ g = nformat k) as [-> ->].
          { split.
            - inversion T as [|? ? Bv|]; subst. destruct N; unfold bound in Bv; destruct Bv as (d' & E1 & M); rewrite V in E1; injection E1 as <-; now inversion M.
            - destruct N; unfold nexpr_of in Hd; injection Hd as <-; inversion Fd as [| |? d' ? E1 M|]; subst; assert (Z : Some (VNum (ENum k)) = Some (VNum d')) by (rewrite <- V; exact E1); injection Z as <-; now inversion M. }
          replace (mkNum (nformat k) (nvalue k)) with k in * by now destruct k. eexists. splits; eauto.
      - inversion S0; subst. destruct P as [v n' t N' V Ne Sp|v n' k' N' V].
        + rewrite (Name _ _ _ N N') in T. assert (s = t) as ->. { inversion T as [? ? E1|? ? ? E1]; subst; congruence. }
          rewrite (ordinary_build ci t (plain_ordinary t Sp)) in B0. injection B0 as <-. cbn [x_re] in Lg. apply cat_reads in Lg; auto. pose proof Lg as Lg2. apply reads_end in Lg2; auto. apply reads_piece in Lg; auto.
          inversion Lg; subst. eexists. splits; eauto.
        + exfalso. rewrite (Name _ _ _ N N') in T. inversion T as [? ? E1|? y ? E1]; subst; congruence. }
    destruct Got as (k & L2 & -> & T & Lk). apply IH in L2 as (-> & T2 & ->); [|easy]. splits; [rewrite app_length; lia|now apply text_at_app|reflexivity].
Qed.
Theorem fixed_text_exact : forall ci strict fuel l u m b line at_ s e env0 r env1,
  existsb is_dynamic l = true -> fixed strict env0 l u ->
  compile_pattern ascii_engine ci strict (PParts l) = Val m -> s <= e -> e <= List.length b ->
  try_match ascii_engine ci fuel b line at_ m (mkRange s e) env0 = Some (Val (r, env1)) -> m_ty r = Good ->
  exists i, r = mkRes Good (Some (mkInfo (mkRange i (i + List.length u)) 0 at_)) /\ s <= i /\ i + List.length u <= e /\ text_at ci b u i /\ same_vars env0 env1.
Proof.
  intros ci strict fuel l u m b line at_ s e env0 r env1 D Fx C Ls Le H G.
  assert (Cl : Forall (compilable ci strict) l).
  { clear -Fx. induction Fx as [|t l u P H IH|v t l u P H IH]; constructor; auto.
    - destruct P as (_ & A & B). apply cm_static; [apply st_lit|intros t' E; injection E as <-; exact A|intros t' c E; injection E as <-; auto].
    - eapply cm_subst. apply su_var. }
  pose proof (substitutions_linked _ _ _ _ _ _ _ _ _ _ _ _ D Cl C Ls Le H) as O. inversion O as [i j F e1 A1 A2 A3 Lk Sm| |]; subst; [|discriminate G..].
  destruct (fixed_linked _ _ _ _ _ _ _ _ Fx Le i j F ltac:(lia) Lk) as (-> & T & ->). exists i. splits; auto.
Qed.
Print Assumptions fixed_text_exact.

(** Concrete cases. *)
(** "call [[F]]([[#N+1]]) {{.*}}[[R:r[0-9]]];" with a function and a number known *)
Definition var (s : string) : vname := User (of_string s).
Definition call : list part :=
  [QLit (str_of "call "); QMatch (MSubst (var "F") None); QLit (str_of "("); QMatch (MNumeric None None (Some (PBin OAdd (PVar (var "N")) (PNum 1)))); QLit (str_of ") "); QRegex (str_of ".*"); QMatch (MSubst (var "R") (Some (str_of "r[0-9]"))); QLit (str_of ";")].
Definition call_defs : list (vname * value) := [(var "F", VStr (str_of "main")); (var "N", VNum (ENum (mkNum (Some (Unsigned 0)) 41)))].
Definition call_input : bytes := str_of "call main(41) r1;" ++ [10%N] ++ str_of " call main(42) to r7;" ++ [10%N].
Example call_compilable : existsb is_dynamic call = true /\ Forall (compilable false false) call.
Proof.
  split; [reflexivity|].
  repeat (first [apply Forall_nil|apply Forall_cons]); try (eapply cm_subst; constructor);
    (apply cm_static; [first [apply st_lit|eapply st_regex; [reflexivity|discriminate]|eapply st_def; [reflexivity|cbn; auto]]| |]);
    try discriminate; intros t; try (intros E; injection E as <-; right; vm_compute; intuition discriminate);
    intros c E I; injection E as <-; vm_compute in I; repeat (destruct I as [<-|I]; [reflexivity|]); easy.
Qed.
Example call_found : seen ["R"] (at_start false false (PParts call) call_defs call_input) = Some (Val (mkRes Good (Some (mkInfo (mkRange 19 39) 0 0)), [Some (VStr (str_of "r7"))])).
Proof. vm_compute. reflexivity. Qed.
(** ... a fixed one *)
Definition jump : list part := [QLit (str_of "jmp "); QMatch (MSubst (var "L") None); QLit (str_of "+"); QMatch (MSubst (var "N") None)].
Definition jump_defs : list (vname * value) := [(var "L", VStr (str_of "bb0")); (var "N", VNum (ENum (mkNum (Some (Hex 4 true Upper)) 42)))].
Example jump_fixed : fixed false (env_from_config jump_defs) jump (str_of "jmp bb0+0x002A").
Proof.
  change (str_of "jmp bb0+0x002A") with (str_of "jmp " ++ str_of "bb0" ++ str_of "+" ++ display (mkNum (Some (Hex 4 true Upper)) 42) ++ []).
  assert (Pl : forall t : str, t <> [] -> forallb (fun c => (c <? 128)%N && negb (N.eqb c 9))%bool t = true -> plain_literal false t).
  { intros t N H. rewrite forallb_forall in H. unfold plain_literal. splits; [exact N|right; intros I; specialize (H _ I); discriminate H|]. intros c I. specialize (H c I). apply andb_prop in H as [H _]. now apply N.ltb_lt. }
  apply fx_lit; [now apply Pl|]. apply fx_var.
  { eapply pv_text; [apply en_user|reflexivity|discriminate|]. intros c I J. vm_compute in I, J. repeat (destruct I as [<-|I]; [vm_compute in J; intuition discriminate|]). exact I. }
  apply fx_lit; [now apply Pl|]. apply fx_var; [eapply pv_number; [apply en_user|reflexivity]|]. apply fx_nil.
Qed.
Example jump_found : seen [] (at_start false false (PParts jump) jump_defs (str_of "jmp bb1; jmp bb0+0x002A;")) = Some (Val (mkRes Good (Some (mkInfo (mkRange 9 23) 0 0)), [])).
Proof. vm_compute. reflexivity. Qed.

(** The claims that do not hold. *)
(** A pattern may be missed although its text is there: after a failure the search goes on behind what it had
    matched.  "aa[[X]]" is not found in "aaab" if X is "b". *)
Theorem overlap_refuted : exists l b defs,
  at_start false false (PParts l) defs b = Some (Val (failed ENone, env_from_config defs)) /\
  exists i j F, i <= j <= List.length b /\ linked false b (List.length b) 1 l (env_from_config defs) i j F.
Proof.
  exists [QLit (str_of "aa"); QMatch (MSubst (var "X") None)], (str_of "aaab"), [(var "X", VStr (str_of "b"))]. split; [vm_compute; reflexivity|].
  exists 1, 4. eexists. split; [cbn; lia|].
  eapply lk_piece with (k := 3) (vs := []); [|constructor|].
  - change 3 with (1 + List.length (str_of "aa")). apply pc_lit; [cbn; lia|]. intros k x K. destruct k as [|[|k]]; cbn in K; [injection K as <-; eexists; split; [reflexivity|now left]..|destruct k; discriminate].
  - eapply lk_text with (k := 4); [apply su_var|apply en_user|apply tm_here; reflexivity|reflexivity| |apply lk_nil].
    cbn [x_re]. eapply lg_cat; [|apply lg_eps]. eapply lg_set; [cbn; lia|reflexivity|reflexivity].
Qed.
Print Assumptions overlap_refuted.
(** A definition at the end of the input is not carried out: "[[Y]][[X:b]]" is not found in "cb". *)
Theorem last_definition_refuted : exists l b defs,
  at_start false false (PParts l) defs b = Some (Val (failed ENone, env_from_config defs)) /\
  exists i j F, i <= j <= List.length b /\ linked false b (List.length b) 1 l (env_from_config defs) i j F.
Proof.
  exists [QMatch (MSubst (var "Y") None); QMatch (MSubst (var "X") (Some (str_of "b")))], (str_of "cb"), [(var "Y", VStr (str_of "c"))]. split; [vm_compute; reflexivity|].
  exists 0, 2. eexists. split; [cbn; lia|].
  eapply lk_text with (k := 1); [apply su_var|apply en_user|apply tm_here; reflexivity|reflexivity| |].
  - cbn [x_re]. eapply lg_cat; [|apply lg_eps]. eapply lg_set; [cbn; lia|reflexivity|reflexivity].
  - eapply lk_piece with (k := 2) (vs := [(var "X", VStr (str_of "b"))]); [| |apply lk_nil].
    + eapply pc_def; [reflexivity|]. cbn [x_re]. eapply lg_cat; [|apply lg_eps]. eapply lg_set; [cbn; lia|reflexivity|reflexivity].
    + constructor; [|constructor]. split; [reflexivity|]. apply kp_str.
Qed.
Print Assumptions last_definition_refuted.
(** The constraint of a definition is not checked: "[[#X:==5]];" is found in "12;". *)
Theorem constraint_refuted :
  seen ["X"] (at_start false false (PParts [QMatch (MNumeric None (Some (var "X")) (Some (PNum 5))); QLit (str_of ";")]) [] (str_of "12;")) =
  Some (Val (mkRes Good (Some (mkInfo (mkRange 0 3) 0 0)), [Some (VNum (ENum (mkNum (Some default_format) 12)))])).
Proof. vm_compute. reflexivity. Qed.
(** The value of a variable is a regular expression, not a text: "[[X]]" is found in "abc" if X is "a.c", and
    is an error if X is "(". *)
Theorem value_text_refuted :
  seen [] (at_start false false (PParts [QMatch (MSubst (var "X") None)]) [(var "X", VStr (str_of "a.c"))] (str_of "abc")) = Some (Val (mkRes Good (Some (mkInfo (mkRange 0 3) 0 0)), [])) /\
  at_start false false (PParts [QMatch (MSubst (var "X") None)]) [(var "X", VStr (str_of "("))] (str_of "f(x)") = Some Err.
Proof. split; vm_compute; reflexivity. Qed.
(** A search may not end: "{{x*}}[[Y]]" if Y does not occur. *)
Theorem search_ends_refuted : at_start false false (PParts [QRegex (str_of "x*"); QMatch (MSubst (var "Y") None)]) [(var "Y", VStr (str_of "b"))] (str_of "aaaa") = None.
Proof. vm_compute. reflexivity. Qed.
(** A group that takes no part in the match leaves nothing to bind: the program panics. *)
Theorem unmatched_group_refuted : at_start false false (PParts [QRegex (str_of "a|"); QMatch (MSubst (var "X") (Some (str_of "b"))); QMatch (MSubst (var "Y") None)]) [(var "Y", VStr (str_of "c"))] (str_of "ac") = Some Panic.
Proof. vm_compute. reflexivity. Qed.
(** A number in base 16 without a precision cannot be captured before a substitution. *)
Theorem hex_capture_refuted : at_start false false (PParts [QMatch (MNumeric (Some (Hex 0 false Lower)) (Some (var "X")) None); QLit (str_of " "); QMatch (MSubst (var "Y") None)]) [(var "Y", VStr (str_of "c"))] (str_of "2a c") = Some Err.
Proof. vm_compute. reflexivity. Qed.
(** ... a precision that no number has panics *)
Theorem precision_refuted : at_start false false (PParts [QMatch (MNumeric (Some (Unsigned 41)) (Some (var "X")) (Some (PNum 5)))]) [] (str_of "5") = Some Panic.
Proof. vm_compute. reflexivity. Qed.
