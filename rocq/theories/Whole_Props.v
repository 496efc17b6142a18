(** A whole run, from the text of the check file to the verdict (C75, C76). *)
From Coq Require Import String Sorted.
From Verif Require Import Base Text_Model Cursor_Model Check_Model Program_Model Lit_Model Lit_Spec Lit_Props Total_Props File_Spec File_Props Env_Model Num_Model Gram_Model Parse_Model
  Parse_Spec Pat_Spec Parse_Lines Parse_Props Pat_Proofs Pat_Props Regex_Model Smart_Model Smart_Spec PatSet_Model PatSet_Spec PatSet_Props Total_Spec Sim_Proofs Whole_Model Whole_Spec.
Open Scope string_scope.
Open Scope list_scope.
Open Scope nat_scope.
Ltac splits := repeat match goal with |- _ /\ _ => split end.

(** * Parsing *)
Lemma keyword_unused cfg b f w : keyword cfg f w <-> keyword (with_unused cfg b) f w.
Proof. split; (intros []; [apply kw_kind|apply kw_count]; auto). Qed.
Lemma heads_unused cfg b t f r : heads cfg t f r <-> heads (with_unused cfg b) t f r.
Proof.
  split; (intros [p t' u I N E|p sh c w m t' K M]; [now apply hd_comment|apply hd_check; auto]); now apply (keyword_unused cfg b).
Qed.
Lemma says_unused cfg b l o : says cfg l o <-> says (with_unused cfg b) l o.
Proof.
  pose proof (heads_unused cfg b) as X.
  split; (intros [a t f r El W H M|N]; [apply says_some with a t; auto; [now apply X|]|apply says_none]).
  - intros a' t' f' r' E' W' H'. apply X in H'. eapply M; eauto.
  - intros a t f r E W H. apply X in H. eapply N; eauto.
  - intros a' t' f' r' E' W' H'. apply X in H'. eapply M; eauto.
  - intros a t f r E W H. apply X in H. eapply N; eauto.
Qed.
Lemma plain_unused cfg b l : plain_line cfg l -> plain_line (with_unused cfg b) l.
Proof.
  intros (A & B & C & D). split; [exact A|]. split; [|split; [|exact D]].
  - intros a t f E w u E' K. apply (B a t f E w u E'). now apply (keyword_unused cfg b).
  - intros a t f r E N F H. apply (C a t f r E N F). now apply (heads_unused cfg b).
Qed.
Lemma unambiguous_unused cfg b : unambiguous cfg -> unambiguous (with_unused cfg b).
Proof.
  intros [A B]. split.
  - intros p sh c p' sh' c' w K K'. apply (A p sh c p' sh' c' w); now apply (keyword_unused cfg b).
  - intros p f I K. apply (B p f I). now apply (keyword_unused cfg b).
Qed.
Lemma gives_unused cfg b l ds : gives cfg l ds -> gives (with_unused cfg b) l ds.
Proof.
  intros [o0 S0 N|p r s S0 P B|p sh k r t S0 K Ne P B O|p sh k r t S0 K Ne P B]; apply (says_unused cfg b) in S0.
  - now apply gives_nothing with o0.
  - eapply gives_empty; eauto.
  - eapply gives_text; eauto.
  - eapply gives_literal; eauto.
Qed.
(** what is read for a directive *)
Definition reads (c : cline) (d : kind * str) : Prop :=
  kind_of (cl_kind c) = fst d /\
  (fst d <> KEmpty -> cl_pat c = PLit (snd d) /\ snd d <> [] /\ (cl_literal c = true \/ ~ blank (snd d))).
Lemma kind_directive k : kind_of k = directive k.
Proof. now destruct k. Qed.
Lemma kind_empty k : k <> CEmpty -> kind_of k <> KEmpty.
Proof. now destruct k. Qed.
Lemma gives_parse cfg l ds : good_config cfg -> unambiguous cfg -> allow_unused cfg = true -> plain_line cfg l -> gives cfg l ds ->
  exists cs, parse_file cfg l = Some cs /\ Forall2 reads cs ds.
Proof.
  intros G U A P [o0 S0 N|p r s S0 Pt B|p sh k r t S0 K Ne Pt B O|p sh k r t S0 K Ne Pt B].
  - exists []. split; [now apply line_without_directive with o0|constructor].
  - exists [mkCLine CEmpty false PEmpty]. split; [apply (pattern_directive cfg l _ _ _ _ _ G U A P S0 Pt); left; auto|]. constructor; [|constructor]. split; [reflexivity|]. intros H. now destruct H.
  - exists [mkCLine k false (PLit t)]. split.
    + apply (pattern_directive cfg l _ _ _ _ _ G U A P S0 Pt). right. exists k, (PLit t). splits; auto. now apply plain_pattern.
    + constructor; [|constructor]. split; [apply kind_directive|]. intros _. cbn. splits; auto. intros ->. apply B. constructor.
  - exists [mkCLine k true (PLit t)]. split.
    + apply (literal_directive cfg l _ _ _ _ _ G U A P S0 Pt). eauto.
    + constructor; [|constructor]. split; [reflexivity|]. intros _. cbn. auto.
Qed.
Lemma Forall2_concat {A B} (R : A -> B -> Prop) l l' : Forall2 (Forall2 R) l l' -> Forall2 R (concat l) (concat l').
Proof. induction 1; cbn; [constructor|now apply Forall2_app]. Qed.
Lemma parse_given cfg ls dss : good_config cfg -> unambiguous cfg -> Forall (plain_line cfg) ls -> prefixes_used cfg ls -> Forall2 (gives cfg) ls dss ->
  exists cs, parse_file cfg (file ls) = Some cs /\ Forall2 reads cs (concat dss).
Proof.
  intros G U P Us F.
  assert (Y : forall cfg, good_config cfg -> unambiguous cfg -> Forall (plain_line cfg) ls -> allow_unused cfg = true -> Forall2 (gives cfg) ls dss ->
    exists cs, parse_file cfg (file ls) = Some cs /\ Forall2 reads cs (concat dss)).
  { clear. intros cfg G U P A F. assert (H : exists css, Forall2 (fun l c => parse_file cfg l = Some c) ls css /\ Forall2 (Forall2 reads) css dss).
    { induction F as [|l ds ls dss Gv F IH]; [exists []; split; constructor|]. inversion P; subst. destruct IH as (css & I1 & I2); auto.
      destruct (gives_parse cfg l ds) as (cs & C1 & C2); auto. exists (cs :: css). split; now constructor. }
    destruct H as (css & H1 & H2). exists (concat css). split; [apply check_file_by_line_partial; eauto|now apply Forall2_concat]. }
  destruct Us as [A|[ND Us]]; [now apply Y|]. destruct (allow_unused cfg) eqn:A; [now apply Y|].
  destruct (Y (with_unused cfg true)) as (cs & C1 & C2); auto.
  - now apply unambiguous_unused.
  - eapply Forall_impl; [|exact P]. intros l. apply plain_unused.
  - eapply Forall2_weaken; [|exact F]. intros l ds _. apply gives_unused.
  - exists cs. split; [apply unused_prefixes_rejected; auto|exact C2].
Qed.

(** * Compiling *)
Section Texts.
Context (E : engine) (T : set_engine) (fuel rounds : nat) (o : options).
Notation L := (whole_lang E T fuel rounds o).
Notation L' := (lit_lang (o_ci o)).
Notation strict := (o_strict o).
Definition RK (k : kind) (p : wpat E) (p' : Lit_Model.lit) : Prop :=
  k = KEmpty \/ exists t, sp_pat (w_pat E p) = PLit t /\ t <> [] /\ lit_text p' = as_seen strict t /\ lit_span p' = sp_at (w_pat E p) /\
    (match k with KNot | KDag => True | _ => w_matcher E p = MSub E (as_seen strict t) end).
Definition reading (l : line L) (d : kind * str) : Prop :=
  l_kind l = fst d /\ (fst d <> KEmpty -> literal_text_of strict (w_pat E (l_pat l)) = as_seen strict (snd d)).
Lemma seen_nonempty t : t <> [] -> as_seen strict t <> [].
Proof. intros N H. apply N. apply length_zero_iff_nil. unfold as_seen in H. rewrite <- (canonical_length t strict), H. reflexivity. Qed.
Lemma as_lit_text a t : t <> [] -> lit_text (as_lit strict a t) = as_seen strict t /\ lit_span (as_lit strict a t) = a.
Proof. intros N. apply seen_nonempty in N. unfold as_lit. destruct (as_seen strict t); [congruence|]. split; reflexivity. Qed.
Lemma not_white t : ~ blank t -> forallb is_ws t = false.
Proof.
  intros B. destruct (forallb _ t) eqn:H; [|reflexivity]. exfalso. apply B. rewrite forallb_forall in H. apply Forall_forall. intros c I. apply BoolExpr_Proofs.is_white_spec. auto.
Qed.
Lemma literal_text_is t : t <> [] -> literal_text strict t = Val (as_seen strict t).
Proof. intros N. unfold literal_text. destruct t; [congruence|]. reflexivity. Qed.
Lemma compile_text c d at_ : reads c d -> exists l, compile_one E T fuel rounds o at_ c = Val l /\ line_like (L:=L) (L':=L') RK l (mkLine (L:=L') (fst d) (as_lit strict (fst at_) (snd d))) /\ reading l d.
Proof.
  intros [K R]. destruct d as [k t]. cbn [fst snd] in *. unfold compile_one. rewrite K.
  assert (X : k = KEmpty \/ k <> KEmpty) by (destruct k; auto; right; discriminate).
  destruct X as [->|Ne].
  - cbn [bind]. eexists. split; [reflexivity|]. split; [constructor; now left|]. split; [reflexivity|]. intros H; now destruct H.
  - destruct (R Ne) as (Ep & Nt & W). rewrite Ep. destruct (as_lit_text (fst at_) t Nt) as [T1 T2].
    assert (Hm : exists m, match k with
      | KNot | KDag | KEmpty => Val (MAlways E)
      | KLabel => compile_static E (o_ci o) strict (PLit t)
      | _ => if cl_literal c then compile_literal E strict (PLit t) else compile_pattern E (o_ci o) strict (PLit t)
      end = Val m /\ match k with KNot | KDag => True | _ => m = MSub E (as_seen strict t) end).
    { assert (C1 : (if cl_literal c then compile_literal E strict (PLit t) else compile_pattern E (o_ci o) strict (PLit t)) = Val (MSub E (as_seen strict t))).
      { destruct (cl_literal c) eqn:Cl; [cbn; now rewrite literal_text_is|]. destruct W as [W|W]; [discriminate|].
        unfold compile_pattern. cbn [compact]. unfold from_literal. rewrite (not_white t W). destruct t as [|x t]; [congruence|]. rewrite literal_text_is by exact Nt. reflexivity. }
      assert (C2 : compile_static E (o_ci o) strict (PLit t) = Val (MSub E (as_seen strict t))) by (unfold compile_static; cbn [compact]; now rewrite literal_text_is).
      destruct k; try (eexists; split; [exact C1|reflexivity]); try (eexists; split; [reflexivity|exact I]); [now destruct Ne|eexists; split; [exact C2|reflexivity]]. }
    destruct Hm as (m & Em & Hm). rewrite Em. cbn [bind]. eexists. split; [reflexivity|]. split.
    + constructor. right. exists t. cbn [w_pat sp_pat sp_at w_matcher]. splits; auto.
    + split; [reflexivity|]. intros _. cbn [l_pat w_pat]. unfold literal_text_of, written, only_text. cbn [sp_pat parts_of forallb is_literal andb fst flat_map literal_of snd]. now rewrite app_nil_r.
Qed.
Lemma compile_texts_each pos cs ds : Forall2 reads cs ds -> forall n, exists ls, compile_each E T fuel rounds o pos n cs = Val ls /\
  Forall2 (line_like (L:=L) (L':=L') RK) ls (literal_lines (o_ci o) strict pos n ds) /\ Forall2 reading ls ds.
Proof.
  induction 1 as [|c d cs ds R F IH]; intros n; cbn [compile_each]; [exists []; splits; constructor|].
  destruct (compile_text c d (pos n) R) as (l & -> & H1 & H2). cbn [bind]. destruct (IH (S n)) as (ls & -> & H3 & H4). cbn [bind]. exists (l :: ls).
  destruct d as [k t]. cbn [literal_lines fst snd] in *. splits; [reflexivity|now constructor|now constructor].
Qed.

(** * Matching *)
Definition RE (e : @bindings value) (u : unit) : Prop := True.
Lemma lit_ext p q : lit_text p = lit_text q -> lit_span p = lit_span q -> p = q.
Proof. destruct p, q. cbn. intros [= -> ->] ->. reflexivity. Qed.
Definition PL : pat L -> pat L' -> Prop := pat_like (L:=L) (L':=L') RE.
Lemma single_like k p p' : match k with KNot | KDag | KEmpty => False | _ => True end -> RK k p p' -> PL p p'.
Proof.
  intros K [->|(t & Ep & Nt & Et & Es & M)]; [destruct K|]. assert (M' : w_matcher E p = MSub E (as_seen strict t)) by (now destruct k).
  intros b r e e' _ _. cbn [pm whole_lang lit_lang env]. rewrite M'. cbn [try_match settled]. constructor. split; [|exact I]. cbn [fst].
  unfold lit_match. rewrite Et, Es. reflexivity.
Qed.
Definition QN (ps : list (wpat E)) : Prop := NoDup (map (fun p => literal_text_of strict (w_pat E p)) ps).
Definition PN (ps : list (wpat E)) : Prop := exists m, set_of E T o ps = Val m.
Lemma sets_as_literals k ps ps' : k = KNot \/ k = KDag -> QN ps -> Forall2 (RK k) ps ps' ->
  exists m, set_of E T o ps = Val m /\ forall b n r env0,
    any_match E T (o_ci o) fuel b n m r env0 = Some (Val (lit_any (o_ci o) ps' b r, env0)) /\
    dag_match E T (o_ci o) (o_scoped o) fuel b n m r env0 = Some (do (ms, q) <- lit_dag ps' b r; Val (ms, env0, q)).
Proof.
  intros K Q F.
  assert (H : Forall2 (fun p p' => exists t, sp_pat (w_pat E p) = PLit t /\ t <> [] /\ lit_text p' = as_seen strict t /\ lit_span p' = sp_at (w_pat E p)) ps ps').
  { eapply Forall2_weaken; [|exact F]. intros p p' _ [->|(t & A & B & C & D & _)]; [destruct K; discriminate|]. eauto. }
  destruct (texts_as_literals E T (o_ci o) strict (o_scoped o) fuel (map (w_pat E) ps)) as (m & ls & Em & Et & Es & M).
  - apply Forall_map. clear -H. induction H as [|p p' ps ps' (t & A & B & _) F IH]; constructor; auto. now rewrite A.
  - rewrite map_map. exact Q.
  - rewrite forallb_forall. intros c I. apply in_map_iff in I as (p & <- & I). clear -H I. induction H as [|q q' ps ps' (t & A & B & _) F IH]; [destruct I|].
    destruct I as [->|I]; [|auto]. unfold only_text. rewrite A. reflexivity.
  - assert (ls = ps').
    { rewrite map_map in Et, Es. clear -H Et Es. revert ls Et Es. induction H as [|p p' ps ps' (t & A & B & C & D) F IH]; intros [|q ls] Et Es; try discriminate; [reflexivity|].
      cbn [map] in Et, Es. assert (Et1 := f_equal (hd []) Et). assert (Es1 := f_equal (hd 0) Es). assert (Et2 := f_equal (@tl _) Et). assert (Es2 := f_equal (@tl _) Es). cbn [hd tl] in *.
      f_equal; [|now apply IH]. apply lit_ext; [|congruence]. rewrite Et1, C. unfold literal_text_of, written, only_text. rewrite A. cbn. now rewrite app_nil_r. }
    subst ls. exists m. split; [exact Em|]. intros b n r env0. apply M.
Qed.
Definition NL (ps : list (wpat E)) (ps' : list Lit_Model.lit) : Prop := PN ps /\ nots_like (L:=L) (L':=L') RE ps ps'.
Definition DL (ps : list (wpat E)) (ps' : list Lit_Model.lit) : Prop := PN ps /\ dags_like (L:=L) (L':=L') RE ps ps'.
Lemma nots_like_ok ps ps' : ps <> [] -> QN ps -> Forall2 (RK KNot) ps ps' -> NL ps ps'.
Proof.
  intros _ Q F. destruct (sets_as_literals KNot ps ps') as (m & Em & M); auto. unfold NL, nots_like. splits.
  - now exists m.
  - clear -F. induction F; cbn; auto.
  - intros b r e e' _ _. cbn [nm whole_lang lit_lang env]. rewrite Em. cbn [bind]. rewrite (proj1 (M b rounds r e)). cbn [settled]. constructor. now split.
Qed.
Lemma dags_like_ok ps ps' : ps <> [] -> QN ps -> Forall2 (RK KDag) ps ps' -> DL ps ps'.
Proof.
  intros _ Q F. destruct (sets_as_literals KDag ps ps') as (m & Em & M); auto. unfold DL, dags_like. splits.
  - now exists m.
  - intros b r e e' _ _. cbn [dm whole_lang lit_lang env]. rewrite Em. cbn [bind]. rewrite (proj2 (M b rounds r e)). cbn [settled].
    destruct (lit_dag ps' b r) as [[ms q]| |]; cbn [bind]; constructor. cbn. now splits.
Qed.
Lemma runs_fit k ls ds : k <> KEmpty -> Forall2 reading ls ds -> neighbours_differ strict k ds -> runs (L:=L) k QN ls.
Proof.
  intros Ne F N pre run post -> A _. apply Forall2_app_inv_l in F as (d1 & d2 & _ & F & ->). apply Forall2_app_inv_l in F as (d3 & d4 & F & _ & ->).
  assert (A' : Forall (fun d => fst d = k) d3).
  { clear -F A. induction F as [|l d ls ds R F IH]; constructor; inversion A; subst; auto. now destruct R. }
  specialize (N d1 d3 d4 eq_refl A'). unfold QN. rewrite map_map.
  replace (map (fun x : line L => literal_text_of strict (w_pat E (l_pat x))) run) with (map (fun d => as_seen strict (snd d)) d3); [exact N|].
  clear -F A' Ne. induction F as [|l d ls ds R F IH]; [reflexivity|]. inversion A'; subst. cbn [map]. rewrite IH by assumption. f_equal. symmetry. now apply R.
Qed.
Scheme group_ind2 := Induction for group Sort Prop with tree_ind2 := Induction for tree Sort Prop.
Combined Scheme group_tree_ind from group_ind2, tree_ind2.
Lemma group_sets_ok : (forall (g : group L) (g' : group L'), group_like (L:=L) (L':=L') PL NL DL g g' -> Forall PN (group_sets E T fuel rounds o g)) /\
  (forall (t : tree L) (t' : tree L'), tree_like (L:=L) (L':=L') PL NL DL t t' -> Forall PN (tree_sets E T fuel rounds o t)).
Proof.
  apply group_tree_ind; cbn [group_sets tree_sets].
  - intros ps g' H. inversion H as [? ? N| | | | |]; subst. repeat constructor. apply N.
  - intros ds g' H. inversion H as [|? ? N| | | |]; subst. repeat constructor. apply N.
  - intros ds g IH g' H. inversion H as [| |? ? ? ? N G| | |]; subst. constructor; [apply N|eauto].
  - intros. constructor.
  - intros. constructor.
  - intros t IH g' H. inversion H; subst. eauto.
  - intros g IH t' H. inversion H; subst. eauto.
  - intros ps l IHl r IHr t' H. inversion H as [|? ? ? ? ? ? N Hl Hr| |]; subst. constructor; [apply N|]. apply Forall_app. split; eauto.
  - intros ps l IHl t' H. inversion H as [| |? ? ? ? N Hl|]; subst. constructor; [apply N|eauto].
  - intros ps l IHl t' H. inversion H as [| | |? ? ? ? N Hl]; subst. constructor; [apply N|eauto].
Qed.
Lemma sets_ok secs secs' : Forall2 (section_like (L:=L) (L':=L') PL PL NL DL) secs secs' -> Forall PN (flat_map (section_sets E T fuel rounds o) secs).
Proof.
  induction 1 as [|x x' secs secs' X F IH]; cbn [flat_map]; [constructor|]. apply Forall_app. split; [|exact IH]. destruct X as [p p' gs gs' _ G|g g' G]; cbn [section_sets].
  - induction G as [|g g' gs gs' G Gs IHg]; cbn [flat_map]; [constructor|]. apply Forall_app. split; [|exact IHg]. eapply (proj1 group_sets_ok); eauto.
  - eapply (proj1 group_sets_ok); eauto.
Qed.
Lemma map_res_ok l : Forall PN l -> exists ms, map_res (set_of E T o) l = Val ms.
Proof. induction 1 as [|ps l (m & Em) F (ms & IH)]; cbn [map_res]; [eauto|]. rewrite Em, IH. cbn [bind]. eauto. Qed.

(** C75: a check file whose patterns are texts is checked as Lit_Model and Check_Model say: what C13 to C23
    state of lists of literals holds of the text of the check file. *)
Theorem whole_texts pos ls dss b : good_config (o_parse o) -> unambiguous (o_parse o) -> Forall (plain_line (o_parse o)) ls -> prefixes_used (o_parse o) ls ->
  Forall2 (gives (o_parse o)) ls dss -> o_imp o = [] ->
  neighbours_differ strict KNot (concat dss) -> neighbours_differ strict KDag (concat dss) ->
  verify E T fuel rounds o pos (file ls) b = filecheck (L:=L') (o_allow o) None (literal_lines (o_ci o) strict pos 0 (concat dss)) b tt.
Proof.
  intros G U P Us F Im Nn Nd. destruct (parse_given (o_parse o) ls dss) as (cs & Ep & R); auto. unfold verify, compile_file. rewrite Ep.
  destruct (compile_texts_each pos cs _ R 0) as (lines & -> & Ln & Rd). cbn [bind]. unfold implicit_pat. rewrite Im. unfold filecheck.
  pose proof (compile_sim (L:=L) (L':=L') PL PL NL DL RK (fun k p p' K => single_like k p p' ltac:(destruct k; easy)) (fun p p' => single_like KLabel p p' I) QN QN nots_like_ok dags_like_ok lines _ Ln) as C.
  specialize (C (conj (runs_fit KNot lines _ ltac:(discriminate) Rd Nn) (runs_fit KDag lines _ ltac:(discriminate) Rd Nd))).
  change (@None (pat L)) with (@None (wpat E)) in C. destruct C as [secs secs' Sx| |]; cbn [bind]; try reflexivity.
  destruct (map_res_ok _ (sets_ok _ _ Sx)) as (ms & ->). cbn [bind].
  apply (check_input_sim (L:=L) (L':=L') RE (fun _ _ _ => I) PL PL NL DL (fun _ _ H => H) (fun _ _ H => H) (fun _ _ H => proj2 H) (fun _ _ H => proj2 H)); [exact Sx|exact I].
Qed.

(** ** CHECK directives alone *)
Lemma insert_last i l : Forall (fun j => i_pspan j <= i_pspan i) l -> insert_match i l = l ++ [i].
Proof. induction 1 as [|j l H F IH]; cbn [insert_match app]; [reflexivity|]. apply Nat.leb_le in H. now rewrite H, IH. Qed.
Lemma sorted_kept l : StronglySorted (fun i j => i_pspan i <= i_pspan j) l -> sort_matches l = l.
Proof.
  unfold sort_matches. intros H. enough (G : forall acc, Forall (fun i => Forall (fun j => i_pspan i <= i_pspan j) l) acc -> fold_left (fun acc i => insert_match i acc) l acc = acc ++ l) by (apply (G []); constructor).
  induction H as [|i l S0 IH F]; intros acc A; cbn [fold_left]; [now rewrite app_nil_r|].
  rewrite insert_last.
  - rewrite IH, <- app_assoc; [reflexivity|]. apply Forall_app. split; [|now constructor]. eapply Forall_impl; [|exact A]. intros j Hj. now inversion Hj.
  - eapply Forall_impl; [|exact A]. intros j Hj. now inversion Hj.
Qed.
Lemma pos_mono (pos : nat -> nat * Z) : (forall n, fst (pos n) <= fst (pos (S n))) -> forall n m, n <= m -> fst (pos n) <= fst (pos m).
Proof. intros H n m Le. induction Le as [|m Le IH]; [lia|]. specialize (H m). lia. Qed.
Lemma found_at_sorted pos : (forall n, fst (pos n) <= fst (pos (S n))) -> forall ts is n,
  StronglySorted (fun i j => i_pspan i <= i_pspan j) (found_at pos n ts is) /\ Forall (fun i => fst (pos n) <= i_pspan i) (found_at pos n ts is).
Proof.
  intros M. induction ts as [|t ts IH]; intros [|i is] n; cbn [found_at]; try (split; constructor).
  - apply IH.
  - eapply Forall_impl; [|apply (proj2 (IH is (S n)))]. cbv beta. intros j H. cbn [i_pspan]. specialize (M n). lia.
  - cbn. lia.
  - eapply Forall_impl; [|apply (proj2 (IH is (S n)))]. cbv beta. intros j H. specialize (M n). lia.
Qed.
Fixpoint plain_lits (pos : nat -> nat * Z) (n : nat) (ts : list str) : list Lit_Model.lit :=
  match ts with [] => [] | t :: r => as_lit strict (fst (pos n)) t :: plain_lits pos (S n) r end.
Lemma plain_lines pos ts : forall n, literal_lines (o_ci o) strict pos n (map (fun t => (KPlain, t)) ts) = map (mkLine (L:=L') KPlain) (plain_lits pos n ts).
Proof. induction ts as [|t ts IH]; intros n; cbn [map literal_lines plain_lits]; [reflexivity|]. f_equal. apply IH. Qed.
Lemma plain_sequence pos b ts : Forall (fun t => t <> []) ts -> forall n from is,
  (in_sequence (o_ci o) b (plain_lits pos n ts) from is <-> one_after_the_other (o_ci o) b (map (as_seen strict) ts) from is) /\
  infos_at (plain_lits pos n ts) is = found_at pos n (map (as_seen strict) ts) is.
Proof.
  induction 1 as [|t ts Nt F IH]; intros n from [|i is]; cbn [plain_lits map in_sequence one_after_the_other]; try (split; [tauto|reflexivity]).
  destruct (as_lit_text (fst (pos n)) t Nt) as [T1 T2]. rewrite T1. destruct (IH (S n) (i + List.length (as_seen strict t)) is) as [I1 I2]. split.
  - unfold occurrence. rewrite T1, I1. tauto.
  - unfold infos_at in *. cbn [combine map fst snd]. rewrite I2. cbn [found_at]. f_equal. unfold lit_info. now rewrite T1, T2.
Qed.
Lemma given_texts cfg ls dss : Forall2 (gives cfg) ls dss -> Forall (fun d => fst d = KEmpty \/ snd d <> []) (concat dss).
Proof.
  induction 1 as [|l ds ls dss G F IH]; [constructor|]. cbn [concat]. apply Forall_app. split; [|exact IH].
  destruct G as [o0 S0 N|p r s S0 P B|p sh k r t S0 K Ne P B O|p sh k r t S0 K Ne P B]; [constructor| | |]; (apply Forall_cons; [|apply Forall_nil]); auto.
  right. cbn. intros ->. apply B. constructor.
Qed.
(** C75: a check file with CHECK directives for the texts [ts], run on an input: the check file is accepted and
    the run ends; the input passes iff the texts stand in it one after the other, and the places reported
    are then the first ones. *)
Theorem whole_sequence pos ls dss ts b : good_config (o_parse o) -> unambiguous (o_parse o) -> Forall (plain_line (o_parse o)) ls -> prefixes_used (o_parse o) ls ->
  Forall2 (gives (o_parse o)) ls dss -> concat dss = map (fun t => (KPlain, t)) ts -> o_imp o = [] ->
  ts <> [] -> b <> [] \/ o_allow o = true -> (forall n, fst (pos n) <= fst (pos (S n))) ->
  let run := verify E T fuel rounds o pos (file ls) b in
  let seen := map (as_seen strict) ts in
  run <> Panic /\
  ((exists out, reports run out) <-> exists is, one_after_the_other (o_ci o) b seen 0 is) /\
  (forall out, reports run out -> exists is, one_after_the_other (o_ci o) b seen 0 is /\ out = found_at pos 0 seen is /\
     forall is', one_after_the_other (o_ci o) b seen 0 is' -> Forall2 le is is').
Proof.
  intros G U P Us F Ec Im Nt B M run seen.
  assert (Nd : forall k, k = KNot \/ k = KDag -> neighbours_differ strict k (concat dss)).
  { intros k K pre rn post Eq A. destruct rn as [|d rn]; [constructor|]. exfalso. inversion A; subst.
    assert (I : In d (concat dss)) by (rewrite Eq; apply in_app_iff; right; now left). rewrite Ec in I. apply in_map_iff in I as (t & <- & _). cbn in K. destruct K; discriminate. }
  assert (Er : run = filecheck (L:=L') (o_allow o) None (map (mkLine (L:=L') KPlain) (plain_lits pos 0 ts)) b tt).
  { unfold run. rewrite (whole_texts pos ls dss b) by auto. now rewrite Ec, plain_lines. }
  assert (Tn : Forall (fun t => t <> []) ts).
  { pose proof (given_texts _ _ _ F) as H. rewrite Ec in H. clear -H. induction ts as [|t ts IH]; constructor; inversion H as [|? ? X Y]; subst; auto. destruct X as [X|X]; [discriminate|exact X]. }
  assert (Np : plain_lits pos 0 ts <> []) by (destruct ts; [congruence|discriminate]).
  destruct (C13_check_sequence (o_ci o) (o_allow o) (plain_lits pos 0 ts) b Np B) as [C1 C2].
  assert (Q : forall out, reports run out <-> exists out0, passes (o_ci o) (o_allow o) None (map (mkLine (L:=L') KPlain) (plain_lits pos 0 ts)) b out0 /\ out = sort_matches out0).
  { intros out. unfold reports, passes, into_result, t_is_ok. rewrite Er. split.
    - intros (t & Ef & H). exists (t_matches t). destruct (t_errors t) eqn:Ee; [|discriminate]. injection H as <-. split; [exists t; auto|reflexivity].
    - intros (out0 & (t & Ef & Ee & <-) & ->). exists t. rewrite Ee. split; [exact Ef|reflexivity]. }
  assert (Sq : forall is, in_sequence (o_ci o) b (plain_lits pos 0 ts) 0 is <-> one_after_the_other (o_ci o) b seen 0 is) by (intros is; apply plain_sequence; auto).
  splits.
  - rewrite Er. apply C21_no_abort_flat_partial; [right|apply plain_flat_ok|].
    + intros l I. apply in_map_iff in I as (p & <- & _). intros [D|[D|D]]; discriminate.
    + intros (pre & d & mid & n & post & p & H & Kd & _). assert (I : In d (map (mkLine (L:=L') KPlain) (plain_lits pos 0 ts))).
      { rewrite with_no_implicit in H. rewrite H. rewrite in_app_iff. cbn. tauto. }
      apply in_map_iff in I as (? & X & _). subst d. discriminate Kd.
  - split.
    + intros (out & H). apply Q in H as (out0 & H & _). destruct (proj1 C1 (ex_intro _ _ H)) as (is & I). exists is. now apply Sq.
    + intros (is & I). apply Sq in I. destruct (proj2 C1 (ex_intro _ _ I)) as (out0 & H). exists (sort_matches out0). apply Q. eauto.
  - intros out H. apply Q in H as (out0 & H & ->). destruct (C2 out0 H) as (is & I & -> & Min). exists is. splits.
    + now apply Sq.
    + rewrite (proj2 (plain_sequence pos b ts Tn 0 0 is)). apply sorted_kept. now apply found_at_sorted.
    + intros is' I'. apply Min. now apply Sq.
Qed.
End Texts.

(** ** A case *)
Definition nl : string := String (Ascii.ascii_of_nat 10) "".
Definition places (n : nat) : nat * Z := (10 * n, Z.of_nat (S n)).
Definition usual : options := mkOptions check_cfg true false false [] [].
Definition three : list str := [txt "// CHECK: mov  a"; txt "nothing here"; txt "// CHECK{LITERAL}: [[b"; txt "// CHECK: c;"].
Lemma keeps_one t : starts_solid t -> keeps false (of_string " " ++ t) t.
Proof. intros S0. apply keeps_lax; auto. apply Forall_cons; [|constructor]. now apply BoolExpr_Proofs.is_white_spec. Qed.
Lemma solid_when c r : is_ws c = false -> starts_solid (c :: r).
Proof. intros E c' r' [= <- <-] W. apply BoolExpr_Proofs.is_white_spec in W. change (is_ws c = true) in W. congruence. Qed.
Lemma unblank_when t : forallb is_ws t = false -> ~ blank t.
Proof. intros E B. assert (F : forallb is_ws t = true); [|congruence]. apply forallb_forall. intros c I. apply BoolExpr_Proofs.is_white_spec. exact (proj1 (Forall_forall _ _) B c I). Qed.
Lemma nowhere_when t : forallb (fun k => negb (opens_b (skipn k t))) (seq 0 (S (List.length t))) = true -> forall a u, t = a ++ u -> ~ opens u.
Proof.
  intros H a u Eq O. apply opens_b_spec in O. rewrite forallb_forall in H.
  assert (u = skipn (List.length a) t) as -> by (rewrite Eq, skipn_app, skipn_all, Nat.sub_diag; reflexivity).
  assert (I : In (List.length a) (seq 0 (S (List.length t)))) by (apply in_seq; rewrite Eq, app_length; lia). apply H in I. now rewrite O in I.
Qed.
Lemma text_when l p k c r : lsearch check_cfg l = Some (FCheck p (ShKind k) false, 32%N :: c :: r) -> k <> CEmpty -> (forall n, k <> CCount n) -> is_ws c = false ->
  forallb (fun j => negb (opens_b (skipn j (c :: r)))) (seq 0 (S (List.length (c :: r)))) = true -> gives check_cfg l [(directive k, c :: r)].
Proof.
  intros Sy Ne Nc W O. apply (gives_text check_cfg l p (ShKind k) k (32%N :: c :: r)); auto.
  - now apply check_says.
  - apply ki_kind. destruct k; try discriminate. now destruct (Nc n).
  - apply pt_lax; [reflexivity|]. apply (keeps_lax_ascii (of_string " ")); [apply Forall_cons; [cbv; tauto|constructor]|]. intros c' r' [= <- _] B. inversion B as [|? ? B' _]; subst.
    assert (X : is_ws c = true); [|congruence]. apply BoolExpr_Proofs.is_white_spec. destruct B' as [-> | [-> | [-> | [-> | ->]]]]; cbn; tauto.
  - apply unblank_when. cbn [forallb]. now rewrite W.
  - now apply nowhere_when.
Qed.
Lemma literal_when l p k c r : lsearch check_cfg l = Some (FCheck p (ShKind k) true, 32%N :: c :: r) -> k <> CEmpty -> (forall n, k <> CCount n) -> is_ws c = false ->
  gives check_cfg l [(directive k, c :: r)].
Proof.
  intros Sy Ne Nc W. apply (gives_literal check_cfg l p (ShKind k) k (32%N :: c :: r)); auto.
  - now apply check_says.
  - apply ki_kind. destruct k; try discriminate. now destruct (Nc n).
  - apply (keeps_one (c :: r)). now apply solid_when.
  - discriminate.
Qed.
Lemma nothing_when l : lsearch check_cfg l = None -> gives check_cfg l [].
Proof. intros H. apply gives_nothing with None; [|discriminate]. destruct (default_config false false true) as [G U]. now apply (says_spec check_cfg G U). Qed.
Example whole_case : good_config check_cfg /\ unambiguous check_cfg /\ Forall (plain_line check_cfg) three /\ prefixes_used check_cfg three /\
  Forall2 (gives check_cfg) three [[(KPlain, txt "mov  a")]; []; [(KPlain, txt "[[b")]; [(KPlain, txt "c;")]] /\
  verify ascii_engine ascii_set 20 20 usual places (file three) (of_string ("c; MOV  A" ++ nl ++ "a[[b[[bc;c;")) =
    Val (mkTest [mkInfo (mkRange 3 9) 0 0; mkInfo (mkRange 11 14) 0 10; mkInfo (mkRange 17 19) 0 20] 3 []).
Proof.
  destruct (default_config false false true) as [G U]. splits; auto.
  - repeat (apply Forall_cons; [plain|]); apply Forall_nil.
  - now left.
  - apply Forall2_cons; [apply (text_when _ (txt "CHECK") CPlain); easy|]. apply Forall2_cons; [now apply nothing_when|].
    apply Forall2_cons; [apply (literal_when _ (txt "CHECK") CPlain); easy|]. apply Forall2_cons; [apply (text_when _ (txt "CHECK") CPlain); easy|constructor].
Qed.
(** The same file on an input where the texts stand in another order. *)
Example whole_fails : exists t, verify ascii_engine ascii_set 20 20 usual places (file three) (of_string ("[[b MOV  A" ++ nl ++ "c;")) = Val t /\ into_result t = None.
Proof. eexists. split; [vm_compute; reflexivity|reflexivity]. Qed.
Print Assumptions whole_texts.
Print Assumptions whole_sequence.
