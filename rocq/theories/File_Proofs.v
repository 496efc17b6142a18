(** Whole files. *)
From Verif Require Import Base Text_Model Text_Spec Text_Proofs Cursor_Model Cursor_Spec Cursor_Proofs
  Check_Model Program_Model Check_Spec Check_Proofs Program_Proofs Accept_Proofs File_Spec.

Lemma lf_input_new b : lf_input b -> exists c, cursor_new b = Val c /\ c_crlf c = false.
Proof.
  intros H. unfold cursor_new. destruct (newline_next_ok b 0) as [n N]; [lia|]. rewrite N. simpl.
  eexists; split; [reflexivity|]. simpl. unfold newline_next_from in N.
  destruct (slice b (mkRange 0 (length b))) as [t|] eqn:T; [|discriminate]. injection N as <-.
  assert (TB : t = b).
  { unfold slice in T. simpl in T. rewrite Nat.leb_refl in T. injection T as <-. rewrite Nat.sub_0_r. apply firstn_all. }
  subst t. destruct (memchr LF b) as [i|] eqn:M; [|reflexivity].
  apply memchr_some in M as (M1 & M2 & M3). simpl.
  destruct (Nat.ltb_spec 0 i); [|reflexivity].
  destruct (N.eqb_spec (nth (i - 1) b 0%N) CR); [|reflexivity]. exfalso.
  apply (H i); auto. unfold byte_at. rewrite (nth_error_nth' b 0%N) by lia. congruence.
Qed.

Lemma Forall2_length {A B} (R : A -> B -> Prop) l m : Forall2 R l m -> length l = length m.
Proof. induction 1; simpl; auto. Qed.

Lemma nth_error_combine {A B} (l : list A) (m : list B) : forall k x y, nth_error l k = Some x -> nth_error m k = Some y ->
  nth_error (combine l m) k = Some (x, y).
Proof.
  revert m. induction l as [|a l IH]; intros [|c m] [|k] x y H1 H2; simpl in *; try discriminate; try congruence. auto.
Qed.

Section Files.
Context {L : lang} (LO : lang_ok L).
Implicit Types (f : file L) (imp : option (pat L)).

(** * compiling *)
Lemma no_labels_unlabelled (ls : list (line L)) : no_labels ls -> unlabelled ls.
Proof. intros H. apply Forall_forall. exact H. Qed.

Definition exp1 imp (l : line L) : list (line L) := l :: match l_kind l with KNot => [] | _ => implicit_line imp end.
(** no dependent directive before an independent one *)
Fixpoint anchoredb (seen : bool) (ls : list (line L)) : bool :=
  match ls with
  | [] => true
  | l :: r => (negb (dependent l && negb seen) && anchoredb (seen || independent l) r)%bool
  end.
Lemma anchoredb_false_ex seen ls : anchoredb seen ls = true <->
  forall pre l post, ls = pre ++ l :: post -> dependent l = true -> seen = true \/ exists x, In x pre /\ independent x = true.
Proof.
  revert seen. induction ls as [|a r IH]; intros seen; simpl.
  - split; auto. intros _ [|? ?] ? ? H; discriminate.
  - rewrite andb_true_iff, IH. split.
    + intros [A B] pre l post E D. destruct pre as [|x pre]; simpl in E; injection E as -> ->.
      * rewrite D in A. simpl in A. left. now destruct seen.
      * destruct (B pre l post eq_refl D) as [S|(y & Y & I)].
        -- apply orb_true_iff in S as [S|S]; auto. right. exists x. simpl; auto.
        -- right. exists y. simpl; auto.
    + intros H. split.
      * destruct (dependent a) eqn:D; auto. destruct (H [] a r eq_refl D) as [->|(? & [] & _)]; auto.
      * intros pre l post E D.
        assert (E' : a :: r = (a :: pre) ++ l :: post) by (now rewrite E).
        destruct (H _ _ _ E' D) as [S|(x & X & I)].
        -- left. now rewrite S.
        -- destruct X as [X|X]; [left; rewrite X, I; apply orb_true_r|right; eauto].
Qed.
Lemma relative_b (l : line L) : relative (l_kind l) <-> dependent l = true.
Proof. unfold relative, dependent. destruct (l_kind l); split; intros H; try discriminate; auto; destruct H as [H|[H|H]]; discriminate. Qed.
Lemma places_b (l : line L) : l_kind l <> KLabel -> places (l_kind l) <-> independent l = true.
Proof.
  unfold places, independent. intros N. destruct (l_kind l) ; split; intros H; try discriminate; try congruence; auto; try (destruct H as [H|[H|[? H]]]; discriminate).
  right. right. eauto.
Qed.
Lemma anchored_b ls : no_labels ls -> anchored ls <-> anchoredb false ls = true.
Proof.
  intros NL. rewrite anchoredb_false_ex. unfold anchored. split; intros H pre l post E D.
  - right. apply relative_b in D. destruct (H pre l post E D) as (x & X & P). exists x. split; auto. apply places_b; auto. apply NL. rewrite E. apply in_or_app. auto.
  - apply relative_b in D. destruct (H pre l post E D) as [?|(x & X & P)]; [discriminate|]. exists x. split; auto. apply places_b; auto. apply NL. rewrite E. apply in_or_app. auto.
Qed.

Lemma existsb_implicit imp : existsb independent (implicit_line imp) = false.
Proof. destruct imp; reflexivity. Qed.
Lemma existsb_exp1 imp l : existsb (@independent L) (exp1 imp l) = independent l.
Proof. unfold exp1. simpl. destruct (l_kind l); rewrite ?existsb_implicit; apply orb_false_r. Qed.

Lemma compile_prefix imp ls rest : no_labels ls -> forall block blocks,
  compile_lines imp (ls ++ rest) None block blocks =
  if anchoredb (existsb independent block) ls then compile_lines imp rest None (block ++ flat_map (exp1 imp) ls) blocks else Err.
Proof.
  induction ls as [|l r IH]; intros NL block blocks.
  - simpl. now rewrite app_nil_r.
  - assert (NR : no_labels r) by (intros x X; apply NL; simpl; auto).
    assert (NK : l_kind l <> KLabel) by (apply NL; simpl; auto).
    specialize (IH NR).
    assert (STEP : compile_lines imp (l :: r ++ rest) None block blocks =
      if (dependent l && negb (existsb independent block))%bool then Err
      else compile_lines imp (r ++ rest) None (block ++ exp1 imp l) blocks).
    { simpl. unfold exp1, dependent. destruct (l_kind l); try reflexivity. congruence. }
    change ((l :: r) ++ rest) with (l :: r ++ rest). rewrite STEP. simpl anchoredb. simpl flat_map.
    destruct (dependent l && negb (existsb independent block))%bool; [reflexivity|].
    rewrite IH. rewrite existsb_app, existsb_exp1. simpl andb. now rewrite <- app_assoc.
Qed.

Lemma compile_labelled imp body rest : no_labels body -> forall l block blocks,
  compile_lines imp (body ++ rest) (Some l) block blocks = compile_lines imp rest (Some l) (block ++ body) blocks.
Proof.
  induction body as [|x r IH]; intros NL l block blocks.
  - simpl. now rewrite app_nil_r.
  - assert (NR : no_labels r) by (intros y Y; apply NL; simpl; auto).
    assert (NK : l_kind x <> KLabel) by (apply NL; simpl; auto).
    replace (block ++ x :: r) with ((block ++ [x]) ++ r) by (now rewrite <- app_assoc).
    rewrite <- IH by auto. simpl. destruct (l_kind x); try reflexivity. congruence.
Qed.

Definition lab_block imp (bl : pat L * list (line L)) : option (line L) * list (line L) :=
  (Some (mkLine KLabel (fst bl)), implicit_line imp ++ snd bl).
Lemma compile_rest imp bls : (forall bl, In bl bls -> no_labels (snd bl)) -> forall l block blocks,
  compile_lines imp (flat_map (fun bl => mkLine KLabel (fst bl) :: snd bl) bls) (Some l) block blocks =
  Val (blocks ++ (Some l, block) :: map (lab_block imp) bls).
Proof.
  induction bls as [|[p body] bls IH]; intros NL l block blocks; [reflexivity|].
  change (flat_map _ ((p, body) :: bls)) with (mkLine KLabel p :: body ++ flat_map (fun bl => mkLine KLabel (fst bl) :: snd bl) bls).
  cbn [compile_lines]. simpl l_kind. cbv iota.
  rewrite compile_labelled by (apply (NL (p, body)); simpl; auto).
  rewrite IH by (intros; apply NL; simpl; auto). rewrite <- app_assoc. reflexivity.
Qed.

Definition the_blocks imp f : list (option (line L) * list (line L)) :=
  match with_implicit imp (f_prefix f) with [] => [] | pr => [(None, pr)] end ++ map (lab_block imp) (f_blocks f).
Lemma compile_lines_file imp f : file_ok f ->
  compile_lines imp (file_lines f) None (implicit_line imp) [] =
  if anchoredb false (f_prefix f) then Val (the_blocks imp f) else Err.
Proof.
  intros (NP & NB & _). unfold file_lines. rewrite compile_prefix by auto. rewrite existsb_implicit.
  destruct (anchoredb false (f_prefix f)); auto.
  change (implicit_line imp ++ flat_map (exp1 imp) (f_prefix f)) with (with_implicit imp (f_prefix f)).
  unfold the_blocks. destruct (f_blocks f) as [|[p body] bls].
  - simpl. destruct (with_implicit imp (f_prefix f)); reflexivity.
  - change (flat_map _ ((p, body) :: bls)) with (mkLine KLabel p :: body ++ flat_map (fun bl => mkLine KLabel (fst bl) :: snd bl) bls).
    cbn [compile_lines]. simpl l_kind. cbv iota.
    destruct (with_implicit imp (f_prefix f)) as [|x r] eqn:W.
    + assert (imp = None). { unfold with_implicit in W. apply app_eq_nil in W as [W _]. destruct imp; [discriminate|auto]. }
      subst imp. rewrite compile_labelled by (apply (NB (p, body)); simpl; auto).
      rewrite compile_rest by (intros; apply NB; simpl; auto). reflexivity.
    + rewrite compile_labelled by (apply (NB (p, body)); simpl; auto).
      rewrite compile_rest by (intros; apply NB; simpl; auto). reflexivity.
Qed.

(** The groups of a part, and the sections of a file. *)
Definition groups_for (body : list (line L)) (gs : list (group L)) : Prop :=
  rshape (rev gs) /\ flats gs = items_of body.
Lemma blocks_compile imp bls : (forall bl, In bl bls -> no_labels (snd bl)) ->
  (forall bl, In bl bls -> counts_ok (snd bl)) ->
  exists gss, Forall2 (fun bl gs => groups_for (implicit_line imp ++ snd bl) gs) bls gss /\
    compile_blocks (map (lab_block imp) bls) = Val (map (fun x => SBlock (fst (fst x)) (snd x)) (combine bls gss)).
Proof.
  induction bls as [|[p body] bls IH]; intros NL CO.
  - exists []. split; auto.
  - destruct IH as (gss & F & C); [intros; apply NL; simpl; auto|intros; apply CO; simpl; auto|].
    destruct (compile_block_ok (Some (mkLine KLabel p)) (implicit_line imp ++ body)) as (gs & S1 & S2 & S3).
    + apply Forall_app. split; [destruct imp; repeat constructor; discriminate|]. apply no_labels_unlabelled, (NL (p, body)). simpl; auto.
    + apply Forall_app. split; [destruct imp; repeat constructor; discriminate|]. apply (CO (p, body)). simpl; auto.
    + exists (gs :: gss). split; [constructor; auto; split; auto|].
      change (map (lab_block imp) ((p, body) :: bls)) with (lab_block imp (p, body) :: map (lab_block imp) bls).
      cbn [compile_blocks]. change (lab_block imp (p, body)) with (Some (mkLine KLabel p), implicit_line imp ++ body).
      rewrite S3. cbn [bind]. rewrite C. reflexivity.
Qed.

Lemma items_nonempty (ls : list (line L)) : unlabelled ls -> ls <> [] -> items_of ls <> [].
Proof.
  intros U NE. destruct ls as [|l r]; [congruence|]. inversion U; subst.
  change (items_of (l :: r)) with (cons_line l (items_of r)). unfold cons_line.
  destruct (l_kind l); try discriminate; try congruence; destruct (items_of r) as [|[]]; discriminate.
Qed.

Lemma with_implicit_unlabelled imp ls : no_labels ls -> unlabelled (with_implicit imp ls).
Proof.
  intros H. apply Forall_app. split; [destruct imp; repeat constructor; discriminate|].
  apply Forall_forall. intros x X. apply in_flat_map in X as (l & Il & X). destruct X as [<-|X]; [apply H; auto|].
  destruct (l_kind l); destruct imp; simpl in X; try contradiction; destruct X as [<-|[]]; discriminate.
Qed.
Lemma with_implicit_counts imp ls : counts_ok ls -> counts_ok (with_implicit imp ls).
Proof.
  intros H. rewrite <- (Forall_forall) in *|| idtac. apply Forall_app. split; [destruct imp; repeat constructor; discriminate|].
  apply Forall_forall. intros x X. apply in_flat_map in X as (l & Il & X).
  destruct X as [<-|X]; [eapply Forall_forall in H; eauto|].
  destruct (l_kind l); destruct imp; simpl in X; try contradiction; destruct X as [<-|[]]; discriminate.
Qed.

Lemma compile_blocks_app (a c : list (option (line L) * list (line L))) :
  compile_blocks (a ++ c) = (do x <- compile_blocks a; do y <- compile_blocks c; Val (x ++ y)).
Proof.
  induction a as [|x a IH]; simpl.
  - destruct (compile_blocks c); reflexivity.
  - rewrite IH. destruct (compile_block x); simpl; auto. destruct (compile_blocks a); simpl; auto.
    destruct (compile_blocks c); simpl; auto. now rewrite app_assoc.
Qed.

Theorem compile_file imp f : file_ok f -> file_lines f <> [] \/ imp <> None ->
  if anchoredb false (f_prefix f) then
    exists pre gss, groups_for (with_implicit imp (f_prefix f)) pre /\
      Forall2 (fun bl gs => groups_for (implicit_line imp ++ snd bl) gs) (f_blocks f) gss /\
      (pre = [] <-> with_implicit imp (f_prefix f) = []) /\
      compile imp (file_lines f) = Val (map SGroup pre ++ map (fun x => SBlock (fst (fst x)) (snd x)) (combine (f_blocks f) gss))
  else compile imp (file_lines f) = Err.
Proof.
  intros OK NE. pose proof OK as (NP & NB & NC).
  assert (CB : forall bl, In bl (f_blocks f) -> counts_ok (snd bl)).
  { intros bl I. apply Forall_forall. intros x X. apply NC. unfold file_lines. apply in_or_app. right.
    apply in_flat_map. exists bl. simpl; auto. }
  assert (CP : counts_ok (f_prefix f)).
  { apply Forall_forall. intros x X. apply NC. unfold file_lines. apply in_or_app. auto. }
  assert (CC : compile imp (file_lines f) = (do bs <- compile_lines imp (file_lines f) None (implicit_line imp) []; compile_blocks bs)).
  { unfold compile. destruct (file_lines f), imp; auto. destruct NE; congruence. }
  rewrite compile_lines_file in CC by auto. destruct (anchoredb false (f_prefix f)); [|exact CC].
  simpl in CC. unfold the_blocks in CC. rewrite compile_blocks_app in CC.
  destruct (blocks_compile imp (f_blocks f) NB CB) as (gss & F & C). rewrite C in CC.
  destruct (compile_block_ok None (with_implicit imp (f_prefix f))) as (pre & S1 & S2 & S3);
    auto using with_implicit_unlabelled, with_implicit_counts.
  assert (PE : pre = [] <-> with_implicit imp (f_prefix f) = []).
  { split; intros H.
    - destruct (with_implicit imp (f_prefix f)) eqn:W; auto. exfalso.
      apply (items_nonempty (with_implicit imp (f_prefix f))); [apply with_implicit_unlabelled; auto|congruence|].
      rewrite W, <- S2, H. reflexivity.
    - rewrite H in S3. injection S3 as S3. destruct pre; [auto|discriminate]. }
  exists pre, gss. splits; auto; [split; auto|].
  rewrite CC. destruct (with_implicit imp (f_prefix f)) eqn:W.
  - destruct PE as [_ ->]; auto.
  - cbn [compile_blocks]. rewrite S3. simpl. now rewrite app_nil_r.
Qed.

(** * finding the labels *)
Section Discover.
Variable b : bytes.
Definition prev_of (pos : nat) : nat := match find_prev_lf b (mkRange 0 pos) with Some (Some i) => i | _ => 0 end.

Lemma prev_newline_ok c pos : c_buf c = b -> c_crlf c = false -> pos <= length b ->
  exists x, prev_newline_from c pos = Val x /\ unwrap_or x 0 = prev_of pos.
Proof.
  intros B C H. unfold prev_newline_from, prev_newline_in_range. rewrite B, C.
  rewrite (bounds_of_ok b Unbounded (Excluded pos) 0 pos (eq_refl : begins Unbounded (mkRange 0 (length b)) 0) (stops_excl _ _)) by lia.
  cbn [bind]. unfold prev_of. destruct (slice_ok b (mkRange 0 pos)) as [t T]; simpl; try lia.
  unfold find_prev_lf. rewrite T. simpl. eexists; split; [reflexivity|]. destruct (memrchr LF t); reflexivity.
Qed.
Lemma prev_of_last pos n : last_lf b pos n -> pos <= length b -> prev_of pos = n.
Proof.
  intros H P. unfold prev_of. assert (X : find_prev_lf b (mkRange 0 pos) = Some (Some n)).
  { apply find_prev_lf_some. simpl. split; auto; lia. }
  now rewrite X.
Qed.
Lemma last_lf_prev pos m : pos <= length b -> m < pos -> byte_at b m LF -> last_lf b pos (prev_of pos) /\ m <= prev_of pos.
Proof.
  intros P M B. destruct (slice_ok b (mkRange 0 pos)) as [t T]; simpl; try lia.
  destruct (find_prev_lf b (mkRange 0 pos)) as [[i|]|] eqn:F.
  - pose proof F as F'. apply find_prev_lf_some in F' as (_ & F'). simpl in F'. rewrite (prev_of_last pos i) by auto. split; auto.
    destruct F' as (R & _ & Q). destruct (Nat.le_gt_cases m i); auto. exfalso. apply (Q m); auto; lia.
  - apply find_prev_lf_none in F as (_ & F). simpl in F. exfalso. apply (F m); auto. lia.
  - unfold find_prev_lf in F. rewrite T in F. discriminate.
Qed.

(** the blocks added for labels found at [is], the current block last *)
Fixpoint blocks_from (cur : block) (i : nat) (is : list minfo) : list block :=
  match is with
  | [] => [cur]
  | x :: r => set_end (prev_of (rstart (i_span x))) cur ::
              blocks_from (mkBlock (Some x) (i, i + 1) (Some (eol_of b (rstart (i_span x)))) None) (S i) r
  end.

Definition at_pos (from : nat) (s : state L) : Prop :=
  cursor_ok b (s_cur s) /\ c_crlf (s_cur s) = false /\ c_start (s_cur s) = from /\ c_end (s_cur s) = length b.

Lemma search_to_eof_ok s from : at_pos from s -> search_to_eof (s_cur s) = Val (mkRange from (length b)).
Proof.
  intros ((B & R & _) & _ & P & E). unfold search_to_eof. rewrite B.
  apply bounds_of_ok; [rewrite P; apply begins_incl|simpl; auto|lia].
Qed.

(** one label *)
Lemma label_step i p gs r s from rb errors : at_pos from s -> solid p ->
  (exists x en', found b p from (length b) (s_env s) x en' /\
     exists s', at_pos (eol_of b (rstart (i_span x))) s' /\ s_env s' = s_env s /\
       rstart (i_span x) < length b /\ from <= rstart (i_span x) /\
     discover i (SBlock p gs :: r) s rb errors =
     discover (S i) r s' (mkBlock (Some x) (i, i + 1) (Some (eol_of b (rstart (i_span x)))) None
        :: end_latest (prev_of (rstart (i_span x))) rb) errors)
  \/ ((forall x en', ~ found b p from (length b) (s_env s) x en') /\
     discover i (SBlock p gs :: r) s rb errors =
     discover (S i) r s (mkBlock None (i, i + 1) None None :: rb) (errors ++ [ENone])).
Proof.
  intros AP SO. pose proof AP as ((B & R & _) & CL & P & EQ). unfold end_of_file in *.
  cbn [discover]. rewrite (search_to_eof_ok s from AP). cbn [bind]. unfold buf, end_of_file. rewrite B.
  destruct (ok_pm L LO p b from (length b) (s_env s)) as (m & en' & M & D); [lia|]. rewrite M. cbn [bind].
  destruct (SO b from (length b) (s_env s) m en' ltac:(lia) M) as [S1 S2].
  destruct D as [G|(er & F & _)].
  - left. destruct G as (T & x & I & X1 & X2). simpl in X1, X2. rewrite I.
    destruct (S2 x I) as (c0 & BA & _).
    assert (LT : rstart (i_span x) < length b) by (apply nth_error_Some; unfold byte_at in BA; congruence).
    destruct (next_newline_from_ok b (s_cur s) (rstart (i_span x))) as (o & O1 & _ & O3); auto; [lia|].
    destruct (prev_newline_ok (s_cur s) (rstart (i_span x))) as (q & Q1 & Q2); auto; [lia|].
    destruct (eol_of_ok b (rstart (i_span x))) as (Z & _); [lia|].
    destruct (set_start_ok b (s_cur s) (eol_of b (rstart (i_span x)))) as (c' & W1 & W2 & W3 & W4 & W5); auto; [apply AP|].
    assert (ST : c_start c' = eol_of b (rstart (i_span x))) by lia.
    exists x, en'. split; [exists m; auto|].
    exists (mkState c' (s_env s)). splits; try solve [simpl; auto; lia].
    + split; [exact W2|]. split; [exact W3|]. simpl. split; [exact ST|congruence].
    + rewrite O1. cbn [bind]. rewrite Q1. cbn [bind]. rewrite O3, W1. cbn [bind]. rewrite ST, Q2. reflexivity.
  - right. assert (NI : m_info m = None) by (apply S1; unfold m_is_ok; now rewrite F).
    rewrite NI. split; [|reflexivity].
    intros x en2 (m2 & M2 & T2 & _). rewrite M in M2. injection M2 as <- <-. congruence.
Qed.

Lemma discover_errors (secs : list (section L)) : forall i s rb errors rb' errors' s', discover i secs s rb errors = Val (rb', errors', s') ->
  exists more, errors' = errors ++ more.
Proof.
  induction secs as [|[p gs|g] r IH]; intros i s rb errors rb' errors' s' H; cbn [discover] in H.
  - injection H as <- <- <-. exists []. now rewrite app_nil_r.
  - apply bind_val in H as (rg & _ & H). destruct (pm p (buf s) rg (s_env s)) as [[m en]| |]; [| |discriminate].
    + destruct (m_info m).
      * apply bind_val in H as (? & _ & H). apply bind_val in H as (? & _ & H). apply bind_val in H as (? & _ & H). eauto.
      * apply IH in H as (more & ->). rewrite <- app_assoc. eauto.
    + apply IH in H as (more & ->). rewrite <- app_assoc. eauto.
  - eauto.
Qed.

Lemma found_unique p s e en x1 e1 x2 e2 : found b p s e en x1 e1 -> found (L:=L) b p s e en x2 e2 -> x1 = x2.
Proof. intros (m & M & _ & I) (m' & M' & _ & I'). rewrite M in M'. injection M' as <- <-. congruence. Qed.

Definition secs_of (ps : list (pat L)) (gss : list (list (group L))) : list (section L) :=
  map (fun x => SBlock (fst x) (snd x)) (combine ps gss).
(** all the labels, when a block is open *)
Lemma discover_found ps : forall gss, Forall solid ps -> length gss = length ps -> forall i s from cur rb errors,
  at_pos from s -> b_start cur <> None -> forall is, labels_at b (s_env s) from ps is ->
  exists s', discover i (secs_of ps gss) s (cur :: rb) errors =
       Val (rev (blocks_from cur i is) ++ rb, errors, s') /\ s_env s' = s_env s /\ cursor_ok b (s_cur s') /\ c_crlf (s_cur s') = false.
Proof.
  induction ps as [|p ps IH]; intros [|gs gss] FS LL i s from cur rb errors AP NN is LA; try discriminate.
  - inversion LA; subst. exists s. simpl. destruct AP as (? & ? & _). auto.
  - inversion FS as [|? ? SO FS']; subst. inversion LA as [|? ? ? x is' en1 s1 F LE LA']; subst.
    change (secs_of (p :: ps) (gs :: gss)) with (SBlock p gs :: secs_of ps gss).
    destruct (label_step i p gs (secs_of ps gss) s from (cur :: rb) errors AP SO) as [(y & en' & FY & s2 & A2 & E2 & _ & _ & ->)|(NF & _)].
    + assert (y = x) by (eapply found_unique; eauto). subst y.
      rewrite <- (eol_of_eq _ _ _ LE) in LA'. rewrite <- E2 in LA'.
      replace (end_latest (prev_of (rstart (i_span x))) (cur :: rb)) with (set_end (prev_of (rstart (i_span x))) cur :: rb)
        by (simpl; destruct (b_start cur); congruence).
      destruct (IH gss FS' ltac:(simpl in LL; lia) (S i) s2 _ (mkBlock (Some x) (i, i + 1) (Some (eol_of b (rstart (i_span x)))) None)
        (set_end (prev_of (rstart (i_span x))) cur :: rb) errors A2 ltac:(discriminate) is' LA') as (s' & D & E' & K).
      exists s'. rewrite D. simpl. rewrite <- app_assoc. splits; auto; try congruence; apply K.
    + exfalso. exact (NF _ _ F).
Qed.

Lemma discover_total ps : forall gss, Forall solid ps -> length gss = length ps -> forall i s from rb errors,
  at_pos from s -> exists rb' errors' s', discover i (secs_of ps gss) s rb errors = Val (rb', errors', s') /\
     s_env s' = s_env s /\ cursor_ok b (s_cur s') /\ c_crlf (s_cur s') = false /\
     (errors' = errors -> exists is, labels_at b (s_env s) from ps is).
Proof.
  induction ps as [|p ps IH]; intros [|gs gss] FS LL i s from rb errors AP; try discriminate.
  - exists rb, errors, s. destruct AP as (? & ? & _). splits; auto. intros _. exists []. constructor.
  - inversion FS as [|? ? SO FS']; subst. change (secs_of (p :: ps) (gs :: gss)) with (SBlock p gs :: secs_of ps gss).
    destruct (label_step i p gs (secs_of ps gss) s from rb errors AP SO) as [(y & en' & FY & s2 & A2 & E2 & LT & _ & ->)|(NF & ->)].
    + destruct (IH gss FS' ltac:(simpl in LL; lia) (S i) s2 _
        (mkBlock (Some y) (i, i + 1) (Some (eol_of b (rstart (i_span y)))) None :: end_latest (prev_of (rstart (i_span y))) rb) errors A2)
        as (rb' & errors' & s' & D & E' & K1 & K2 & IM).
      exists rb', errors', s'. rewrite D. splits; auto; try congruence. intros Q. destruct (IM Q) as (is & LA). exists (y :: is).
      rewrite E2 in LA. econstructor; eauto. apply eol_of_ok. lia.
    + destruct (IH gss FS' ltac:(simpl in LL; lia) (S i) s from (mkBlock None (i, i + 1) None None :: rb) (errors ++ [ENone]) AP)
        as (rb' & errors' & s' & D & E' & K1 & K2 & IM).
      exists rb', errors', s'. rewrite D. splits; auto. intros Q. exfalso.
      apply discover_errors in D as (more & ->). rewrite <- app_assoc in Q.
      apply (f_equal (@length _)) in Q. rewrite app_length in Q. simpl in Q. lia.
Qed.

Lemma discover_groups (gs : list (group L)) : forall r i s rb errors,
  discover i (map SGroup gs ++ r) s rb errors = discover (i + length gs) r s rb errors.
Proof.
  induction gs as [|g gs IH]; intros r i s rb errors; simpl.
  - now rewrite Nat.add_0_r.
  - rewrite IH. f_equal. lia.
Qed.

(** * the blocks *)
(** the rest of the sections are the labelled ones *)
Definition block_of (x : option minfo) (se : nat * nat) (st : nat) : block := mkBlock x se (Some st) None.
Definition sec_groups (secs : list (section L)) (lo hi : nat) (gs : list (group L)) : Prop :=
  (firstn (hi - lo) (skipn lo secs) = map SGroup gs /\ hi - lo = length gs) \/
  (hi = lo + 1 /\ exists p, nth_error secs lo = Some (SBlock p gs)).

Lemma groups_of_map (gs : list (group L)) : groups_of (map SGroup gs) = Val gs.
Proof. induction gs as [|g r IH]; [reflexivity|]. simpl. change (fold_right _ (Val []) (map SGroup r)) with (groups_of (map SGroup r)). now rewrite IH. Qed.

Lemma check_block_groups secs lo hi gs lab st e t s : sec_groups secs lo hi gs ->
  cursor_ok b (s_cur s) -> c_crlf (s_cur s) = false -> st <= unwrap_or e (length b) <= length b ->
  exists s', st_ok b (unwrap_or e (length b)) s' /\ pos_of s' = st /\ s_env s' = enter (s_env s) /\
    check_block secs (mkBlock lab (lo, hi) (Some st) e) t s =
    check_groups gs (match lab with Some i => t_matched t i | None => t end) s'.
Proof.
  intros SG (B & _) CL R. unfold check_block. cbn [b_start b_end b_secs b_label]. unfold buf. rewrite B.
  unfold range_new. destruct (Nat.leb_spec st (unwrap_or e (length b))); [|lia]. cbn [unwrap bind rstart rend].
  destruct (set_bounds_ok b (s_cur s) (Included st) (Excluded (unwrap_or e (length b))) st (unwrap_or e (length b)))
    as (c & H1 & H2 & H3 & H4 & H5 & H6); auto using begins_incl, stops_excl.
  rewrite H1. cbn [bind]. exists (mkState c (enter (s_env s))). splits; auto; [split; auto|].
  destruct SG as [(FG & LG)|(-> & p & NT)].
  - destruct gs as [|g [|g2 gs]].
    + simpl in LG. destruct (Nat.leb_spec hi lo); [reflexivity|lia].
    + simpl in LG. destruct (Nat.leb_spec hi lo); [lia|]. destruct (Nat.ltb_spec 1 (hi - lo)); [lia|].
      replace (nth_error secs lo) with (Some (SGroup g)); [reflexivity|].
      assert (X : nth_error (firstn (hi - lo) (skipn lo secs)) 0 = Some (SGroup g)) by (rewrite FG; reflexivity).
      rewrite LG in X. destruct (skipn lo secs) as [|y rest] eqn:SK; [discriminate|]. simpl in X. injection X as ->.
      assert (Y : nth_error (skipn lo secs) 0 = Some (SGroup g)) by (rewrite SK; reflexivity).
      clear -Y. revert secs Y. induction lo as [|lo IH]; intros [|z secs] Y; simpl in *; try discriminate; auto.
    + simpl in LG. destruct (Nat.leb_spec hi lo); [lia|]. destruct (Nat.ltb_spec 1 (hi - lo)); [|lia].
      rewrite FG, groups_of_map. reflexivity.
  - destruct (Nat.leb_spec (lo + 1) lo); [lia|]. destruct (Nat.ltb_spec 1 (lo + 1 - lo)); [lia|]. rewrite NT. reflexivity.
Qed.

Fixpoint spaced (start : nat) (is : list minfo) : Prop :=
  match is with
  | [] => True
  | x :: r => (exists e, last_lf b (rstart (i_span x)) e /\ start <= e /\ block_end_ok b e) /\
              rstart (i_span x) < length b /\ spaced (eol_of b (rstart (i_span x))) r
  end.

Lemma last_lf_unique pos n m : last_lf b pos n -> last_lf b pos m -> n = m.
Proof.
  intros (A1 & A2 & A3) (B1 & B2 & B3). destruct (Nat.lt_trichotomy n m) as [H|[H|H]]; auto; exfalso.
  - apply (A3 m); auto; lia.
  - apply (B3 n); auto; lia.
Qed.
Lemma last_lf_block pos e x : last_lf b pos e -> byte_at b pos x -> x <> LF -> block_end_ok b e.
Proof.
  intros (A1 & A2 & A3) B NX. right. split; auto.
  assert (pos < length b) by (apply nth_error_Some; unfold byte_at in B; congruence).
  destruct (nth_error b (e + 1)) as [y|] eqn:Y.
  - exists y. split; auto. intros ->. destruct (Nat.eq_dec (e + 1) pos) as [Q|Q].
    + rewrite Q in Y. unfold byte_at in B. congruence.
    + apply (A3 (e + 1)); auto. lia.
  - apply nth_error_None in Y. lia.
Qed.

Lemma labels_spaced (en : env L) : forall ps is from, Forall solid ps -> labels_at b en from ps is -> from <= length b ->
  (byte_at b from LF \/ from = length b \/ (from = 0 /\ forall x, head is = Some x -> exists n, last_lf b (rstart (i_span x)) n)) ->
  spaced from is.
Proof.
  induction ps as [|p ps IH]; intros is from FS LA FL GAP; inversion LA as [|? ? ? x is' en1 s1 F LE LA']; subst; [exact I|].
  inversion FS as [|? ? SO FS']; subst. destruct F as (m & M & T & IX).
  destruct (SO _ _ _ _ _ _ (conj FL (le_n _)) M) as [_ S2]. destruct (S2 _ IX) as (y & BY & NY).
  assert (LT : rstart (i_span x) < length b) by (apply nth_error_Some; unfold byte_at in BY; congruence).
  assert (FR : from <= rstart (i_span x)).
  { destruct (ok_pm L LO p b from (length b) en) as (m' & en2 & M' & D); [lia|]. rewrite M in M'. injection M' as <- <-.
    destruct D as [(_ & j & J & R & _)|(er & X & _)]; [|congruence]. rewrite IX in J. injection J as <-. simpl in R. lia. }
  simpl. splits; auto.
  - destruct GAP as [B|[Q|[Z H]]].
    + assert (from < rstart (i_span x)).
      { destruct (Nat.eq_dec from (rstart (i_span x))) as [Q|Q]; [|lia]. rewrite <- Q in BY. unfold byte_at in *. congruence. }
      destruct (last_lf_prev (rstart (i_span x)) from) as [X Y]; auto; [lia|]. exists (prev_of (rstart (i_span x))).
      splits; auto. eapply last_lf_block; eauto.
    + lia.
    + destruct (H x eq_refl) as [n N]. exists n. splits; auto; [lia|]. eapply last_lf_block; eauto.
  - destruct (eol_of_ok b (rstart (i_span x))) as (R & NB & D); [lia|].
    rewrite <- (eol_of_eq _ _ _ LE) in LA'. apply IH; auto; try lia. destruct D as [D|D]; auto.
Qed.


Lemma check_block_grows (secs : list (section L)) bl t s t' s' : check_block secs bl t s = Val (t', s') -> grows t t'.
Proof.
  unfold check_block. set (t0 := match b_label bl with Some i => t_matched t i | None => t end).
  assert (G : grows t t0) by (unfold t0; destruct (b_label bl); [apply grows_eq; reflexivity|apply grows_refl]).
  clearbody t0. intros H. eapply grows_trans; [exact G|]. clear G.
  destruct (b_start bl); [|inj H; apply grows_refl].
  apply bind_val in H as (r & _ & H). apply bind_val in H as (c & _ & H).
  destruct (b_secs bl) as [lo hi]. destruct (hi <=? lo); [inj H; apply grows_refl|].
  destruct (1 <? hi - lo).
  - apply bind_val in H as (gs & _ & H). eapply check_groups_grows; eauto.
  - destruct (nth_error secs lo) as [[]|]; try discriminate; eapply check_groups_grows; eauto.
Qed.
Lemma check_blocks_grows (secs : list (section L)) bls : forall t s t' s', check_blocks secs bls t s = Val (t', s') -> grows t t'.
Proof.
  induction bls as [|bl r IH]; intros t s t' s' H; cbn [check_blocks] in H.
  - inj H. apply grows_refl.
  - apply bind_val in H as ([t1 s1] & H1 & H2). apply check_block_grows in H1. apply IH in H2. eapply grows_trans; eauto.
Qed.

Definition part_ok (body : list (line L)) (gs : list (group L)) : Prop :=
  groups_for body gs /\ unlabelled body /\ counts_ok body.

Lemma parts_iff secs bodies : forall gss is body gs lab lo hi i start t s,
  Forall2 part_ok bodies gss -> length is = length bodies ->
  part_ok body gs -> sec_groups secs lo hi gs ->
  (forall k gs', nth_error gss k = Some gs' -> exists p, nth_error secs (i + k) = Some (SBlock p gs')) ->
  spaced start is -> start <= length b -> cursor_ok b (s_cur s) -> c_crlf (s_cur s) = false ->
  let tm := match lab with Some x => t_matches t ++ [x] | None => t_matches t end in
  let bls := blocks_from (block_of lab (lo, hi) start) i is in
  (forall out en', parts_hold b start body bodies is (s_env s) out en' ->
     exists t' s', check_blocks secs bls t s = Val (t', s') /\ t_errors t' = t_errors t /\ t_matches t' = tm ++ out) /\
  (forall t' s', check_blocks secs bls t s = Val (t', s') -> t_errors t' = [] ->
     exists out en', parts_hold b start body bodies is (s_env s) out en' /\ t_matches t' = tm ++ out).
Proof.
  induction bodies as [|body2 bodies IH]; intros gss is body gs lab lo hi i start t s F2 LI PO SG NS SP SB CK CL tm bls.
  - destruct is; [|discriminate]. clear F2 LI NS. unfold bls. simpl blocks_from. cbn [check_blocks]. unfold block_of.
    destruct (check_block_groups secs lo hi gs lab start None t s SG CK CL) as (s1 & S1 & S2 & S3 & ->); [simpl; lia|].
    simpl unwrap_or in S1. set (t0 := match lab with Some x => t_matched t x | None => t end).
    destruct PO as ((G1 & G2) & U & C).
    destruct (block_accepts LO b (length b) (or_introl eq_refl) gs body t0 s1 S1 U C G1 G2) as [FW BW].
    assert (T0 : t_errors t0 = t_errors t /\ t_matches t0 = tm) by (unfold t0, tm; destruct lab; auto).
    destruct T0 as [T01 T02]. rewrite S2, S3 in *. split.
    + intros out en' H. inversion H; subst. destruct (FW _ _ ltac:(eassumption)) as (t' & s' & X & X1 & X2 & _).
      rewrite X. cbn [bind]. exists t', s'. splits; auto; congruence.
    + intros t' s' H N. apply bind_val in H as ([t1 s2] & X & H). cbn [bind] in H. inj H.
      destruct (BW _ _ X N) as (out & en' & A & M & _). exists out, en'. split; [constructor; auto|congruence].
  - destruct is as [|x is]; [discriminate|]. inversion F2 as [|? gs2 ? gss' PO2 F2']; subst.
    destruct SP as ((e & LL & SE & BE) & LT & SP').
    pose proof (prev_of_last _ _ LL ltac:(lia)) as PE. unfold bls. simpl blocks_from. cbn [check_blocks]. unfold block_of, set_end. cbn [b_label b_secs b_start].
    rewrite PE. pose proof (E_len b e BE) as EL.
    destruct (check_block_groups secs lo hi gs lab start (Some e) t s SG CK CL) as (s1 & S1 & S2 & S3 & ->); [simpl; lia|].
    simpl unwrap_or in S1. set (t0 := match lab with Some x => t_matched t x | None => t end).
    destruct PO as ((G1 & G2) & U & C).
    destruct (block_accepts LO b e BE gs body t0 s1 S1 U C G1 G2) as [FW BW].
    assert (T0 : t_errors t0 = t_errors t /\ t_matches t0 = tm) by (unfold t0, tm; destruct lab; auto).
    destruct T0 as [T01 T02]. rewrite S2, S3 in *.
    destruct (eol_of_ok b (rstart (i_span x))) as (ER & _); [lia|].
    assert (SG2 : sec_groups secs i (i + 1) gs2).
    { right. split; auto. destruct (NS 0 gs2 eq_refl) as [p P]. rewrite Nat.add_0_r in P. eauto. }
    assert (NS2 : forall k gs', nth_error gss' k = Some gs' -> exists p, nth_error secs (S i + k) = Some (SBlock p gs')).
    { intros k gs' K. destruct (NS (S k) gs' K) as [p P]. exists p. replace (S i + k) with (i + S k) by lia. auto. }
    assert (NEXT : forall t1 s2, st_ok b e s2 -> let tm' := t_matches t1 ++ [x] in
      let bls' := blocks_from (block_of (Some x) (i, i + 1) (eol_of b (rstart (i_span x)))) (S i) is in
      (forall out en', parts_hold b (eol_of b (rstart (i_span x))) body2 bodies is (s_env s2) out en' ->
         exists t' s', check_blocks secs bls' t1 s2 = Val (t', s') /\ t_errors t' = t_errors t1 /\ t_matches t' = tm' ++ out) /\
      (forall t' s', check_blocks secs bls' t1 s2 = Val (t', s') -> t_errors t' = [] ->
         exists out en', parts_hold b (eol_of b (rstart (i_span x))) body2 bodies is (s_env s2) out en' /\ t_matches t' = tm' ++ out)).
    { intros t1 s2 ST2. apply (IH gss' is body2 gs2 (Some x) i (i + 1) (S i) (eol_of b (rstart (i_span x))) t1 s2); auto; try lia; apply ST2. }
    split.
    + intros out en' H. inversion H as [|? ? ? o1 en1 e1 ? ? s0 ? ? o2 ? LL1 A1 LE1 PH]; subst.
      rewrite (last_lf_unique _ _ _ LL1 LL) in A1. rewrite <- (eol_of_eq _ _ _ LE1) in PH.
      destruct (FW _ _ A1) as (t1 & s2 & X & X1 & X2 & X3 & X4). rewrite X. cbn [bind].
      destruct (NEXT t1 s2 X4) as [NF _]. rewrite <- X3 in PH. destruct (NF _ _ PH) as (t' & s' & Y & Y1 & Y2).
      exists t', s'. unfold block_of in Y. rewrite Y. splits; auto; [congruence|].
      rewrite Y2, X2, T02. rewrite <- !app_assoc. reflexivity.
    + intros t' s' H N. apply bind_val in H as ([t1 s2] & X & H).
      pose proof (grows_nil _ _ (check_blocks_grows _ _ _ _ _ _ H) N) as N1.
      destruct (BW _ _ X N1) as (o1 & en1 & A1 & M1 & E1 & ST2).
      destruct (NEXT t1 s2 ST2) as [_ NB]. unfold block_of in NB. destruct (NB _ _ H N) as (o2 & en' & PH & M2).
      exists (o1 ++ x :: o2), en'. split.
      * eapply Ph_more; eauto; [apply eol_of_ok; lia|]. rewrite E1 in PH. exact PH.
      * rewrite M2, M1, T02. rewrite <- !app_assoc. reflexivity.
Qed.
End Discover.

Lemma labels_len b en ps : forall is from, labels_at (L:=L) b en from ps is -> length is = length ps.
Proof. induction ps; intros is from H; inversion H; subst; simpl; eauto. Qed.

Lemma app_nil_r' (a c : list (section L)) : a ++ c = [] -> a = [] /\ c = [].
Proof. apply app_eq_nil. Qed.
Lemma count_groups (pre : list (group L)) ps gss :
  count_while (fun x => negb (is_block x)) (map SGroup pre ++ secs_of ps gss) = length pre.
Proof.
  induction pre as [|g r IH]; simpl; [|now rewrite IH].
  unfold secs_of. destruct (combine ps gss); reflexivity.
Qed.
Lemma head_labels b en from ps is x : labels_at (L:=L) b en from ps is -> head is = Some x ->
  exists p en', head ps = Some p /\ found b p from (length b) en x en'.
Proof. intros H. inversion H; subst; simpl; [discriminate|]. intros [= <-]. eauto. Qed.

Lemma discover_blocks_first (pre : list (group L)) ps gss s : pre <> [] ->
  discover_blocks (map SGroup pre ++ secs_of ps gss) s =
  (do (rblocks, errors, s1) <- discover 0 (map SGroup pre ++ secs_of ps gss) s [mkBlock None (0, length pre) (Some 0) None] [];
   do c <- reset (s_cur s1); let s2 := mkState c (s_env s1) in
   Val (match errors with [] => inl (rev rblocks) | _ => inr errors end, s2)).
Proof. intros H. unfold discover_blocks. rewrite count_groups. destruct pre; [congruence|]. reflexivity. Qed.

Lemma labels_cons_inv b en from p ps i is : labels_at (L:=L) b en from (p :: ps) (i :: is) ->
  exists en' s, found b p from (length b) en i en' /\ line_end b (rstart (i_span i)) s /\ labels_at b en s ps is.
Proof. intros H. inversion H; subst. eauto. Qed.

Theorem filecheck_file allow imp f b e : lf_input b -> file_ok f ->
  (forall p, In p (map fst (f_blocks f)) -> solid p) -> room b imp f e ->
  b <> [] \/ allow = true -> file_lines f <> [] \/ imp <> None ->
  (anchored (f_prefix f) ->
     (forall out, file_holds b imp f e out ->
        exists t, filecheck allow imp (file_lines f) b e = Val t /\ t_errors t = [] /\ t_matches t = out) /\
     (forall t, filecheck allow imp (file_lines f) b e = Val t -> t_errors t = [] -> file_holds b imp f e (t_matches t))) /\
  (~ anchored (f_prefix f) -> filecheck allow imp (file_lines f) b e = Err).
Proof.
  intros LF0 OK SO RM NE1 NE2. pose proof OK as (NP & NB & NC).
  assert (FS : Forall solid (map fst (f_blocks f))) by (apply Forall_forall; auto).
  pose proof (compile_file imp f OK NE2) as CF. unfold filecheck. rewrite anchored_b by apply OK.
  destruct (anchoredb false (f_prefix f)); [|split; [discriminate|intros _; rewrite CF; reflexivity]].
  split; [intros _|intros H; congruence].
  destruct CF as (pre & gss & GP & GB & PE & ->). cbn [bind].
  set (ps := map fst (f_blocks f)) in *. set (bodies := map (fun bl => implied imp ++ snd bl) (f_blocks f)).
  assert (LG : length gss = length ps) by (unfold ps; rewrite map_length; symmetry; eapply Forall2_length; eauto).
  assert (SE : map (fun x => SBlock (fst (fst x)) (snd x)) (combine (f_blocks f) gss) = secs_of ps gss).
  { unfold secs_of, ps. clear. revert gss. induction (f_blocks f) as [|bl r IH]; intros [|g gss]; simpl; auto. now rewrite IH. }
  rewrite SE.
  assert (CBD : forall bl, In bl (f_blocks f) -> counts_ok (snd bl)).
  { intros bl I. apply Forall_forall. intros x X. apply NC. unfold file_lines. apply in_or_app. right.
    apply in_flat_map. exists bl. simpl; auto. }
  assert (CP : counts_ok (f_prefix f)).
  { apply Forall_forall. intros x X. apply NC. unfold file_lines. apply in_or_app. auto. }
  assert (F2 : Forall2 part_ok bodies gss).
  { unfold bodies. revert GB NB CBD. clear. intros GB NB CBD. induction GB as [|bl gs bls gss G GB IH]; constructor.
    - split; [exact G|]. split; (apply Forall_app; split; [destruct imp; repeat constructor; discriminate|]).
      + apply no_labels_unlabelled, NB. simpl; auto.
      + apply CBD. simpl; auto.
    - apply IH; intros; [apply NB|apply CBD]; simpl; auto. }
  assert (PP : part_ok (with_implicit imp (f_prefix f)) pre).
  { split; [exact GP|]. split; [apply with_implicit_unlabelled|apply with_implicit_counts]; auto. }
  destruct (lf_input_new b LF0) as (c & CN & CL). destruct (cursor_new_ok b c CN CL) as (CK & CS & CE & NN).
  unfold check_input. rewrite CN. cbn [bind].
  assert (AE : (negb allow && match b with [] => true | _ => false end)%bool = false).
  { destruct NE1 as [H| ->]; [destruct b; [congruence|apply andb_false_r]|reflexivity]. }
  rewrite AE.
  set (secs := map SGroup pre ++ secs_of ps gss).
  assert (AP : at_pos b 0 (mkState (L:=L) c e)) by (split; [exact CK|]; split; [exact CL|]; split; [exact CS|exact CE]).
  assert (SPACED : forall is, labels_at b e 0 ps is -> with_implicit imp (f_prefix f) <> [] -> spaced b 0 is).
  { intros is LA W. eapply labels_spaced; eauto; [lia|]. right. right. split; auto. intros x HX.
    destruct RM as [RM|RM]; [contradiction|]. destruct (head_labels _ _ _ _ _ _ LA HX) as (p & en' & HP & FD).
    eapply RM; eauto. }
  assert (NS : forall k gs', nth_error gss k = Some gs' -> exists p, nth_error secs (length pre + k) = Some (SBlock p gs')).
  { intros k gs' K. assert (KL : k < length ps) by (rewrite <- LG; apply nth_error_Some; congruence).
    destruct (nth_error ps k) as [p|] eqn:P; [|apply nth_error_None in P; lia]. exists p. unfold secs.
    rewrite nth_error_app2 by (rewrite map_length; lia). rewrite map_length. replace (length pre + k - length pre) with k by lia.
    unfold secs_of. erewrite map_nth_error with (d := (p, gs')); [reflexivity|].
    now apply nth_error_combine. }
  (* where discovery starts *)
  assert (LB : length bodies = length ps) by (unfold bodies, ps; now rewrite !map_length).
  assert (PSD : map fst (f_blocks f) = ps) by reflexivity.
  assert (BDD : map (fun bl => implied imp ++ snd bl) (f_blocks f) = bodies) by reflexivity.
  clearbody ps bodies.
  assert (RESET : forall s1 : state L, cursor_ok b (s_cur s1) -> c_crlf (s_cur s1) = false ->
     exists c', reset (s_cur s1) = Val c' /\ cursor_ok b c' /\ c_crlf c' = false).
  { intros s1 K1 K2. destruct (reset_ok b (s_cur s1)) as (c' & R1 & R2 & R3 & _); auto; [apply K1|]. eauto. }
  destruct (with_implicit imp (f_prefix f)) as [|w ws] eqn:W.
  - (* no first part *)
    destruct PE as [_ PE]. specialize (PE eq_refl). subst pre. unfold secs in *. clear secs. simpl app in *. simpl length in *.
    destruct ps as [|p ps'].
    { exfalso. destruct (f_blocks f) as [|? ?] eqn:FB; [|discriminate].
      unfold with_implicit in W. apply app_eq_nil in W as [W1 W2].
      assert (imp = None) by (destruct imp; [discriminate|auto]). subst imp.
      destruct NE2 as [NE2|NE2]; [|congruence]. apply NE2. unfold file_lines. rewrite FB. simpl. rewrite app_nil_r.
      destruct (f_prefix f); [auto|discriminate]. }
    destruct gss as [|gs1 gss']; [discriminate|]. destruct bodies as [|body1 bodies']; [discriminate|].
    inversion FS as [|? ? SO1 FS']; subst. inversion F2 as [|? ? ? ? PO1 F2']; subst.
    assert (DB : discover_blocks (secs_of (p :: ps') (gs1 :: gss')) (mkState c e) =
      (do (rblocks, errors, s1) <- discover 0 (SBlock p gs1 :: secs_of ps' gss') (mkState c e) [] [];
       do c <- reset (s_cur s1); let s2 := mkState c (s_env s1) in
       Val (match errors with [] => inl (rev rblocks) | _ => inr errors end, s2))) by reflexivity.
    rewrite DB. clear DB.
    assert (FH : forall out, file_holds b imp f e out <-> exists x is' s out' en', labels_at b e 0 (p :: ps') (x :: is') /\
        line_end b (rstart (i_span x)) s /\ out = x :: out' /\ parts_hold b s body1 bodies' is' e out' en').
    { intros out. unfold file_holds. rewrite W, PSD, BDD. cbv zeta. split.
      - intros (is & en' & LA & H). inversion LA; subst. destruct H as (s9 & out9 & A1 & A2 & A3). eauto 12.
      - intros (x & is' & s & out' & en' & LA & A1 & A2 & A3). exists (x :: is'), en'. split; eauto. }
    destruct (label_step b 0 p gs1 (secs_of ps' gss') (mkState c e) 0 [] [] AP SO1) as
      [(x & en1 & FX & s2 & A2 & E2 & LT & _ & DS)|(NF & DS)]; rewrite DS; simpl s_env in *.
    + simpl end_latest. assert (LG' : length gss' = length ps') by (simpl in LG; lia).
      destruct (eol_of_ok b (rstart (i_span x))) as (ER & NL & ED); [lia|].
      set (cur := mkBlock (Some x) (0, 0 + 1) (Some (eol_of b (rstart (i_span x)))) None).
      destruct (discover_total b ps' gss' FS' LG' 1 s2 _ [cur] [] A2) as (rb' & er' & s3 & D3 & E3 & K3 & C3 & IM).
      destruct (RESET s3 K3 C3) as (c3 & R3 & R3a & R3b).
      assert (PI : forall is', labels_at b e (eol_of b (rstart (i_span x))) ps' is' ->
         er' = [] /\ rev rb' = blocks_from b cur 1 is' /\ length is' = length bodies' /\ spaced b (eol_of b (rstart (i_span x))) is').
      { intros is' LA. rewrite <- E2 in LA.
        destruct (discover_found b ps' gss' FS' LG' 1 s2 _ cur [] [] A2 ltac:(discriminate) is' LA) as (s4 & D4 & _).
        rewrite D3 in D4. injection D4 as -> -> ->. rewrite app_nil_r, rev_involutive. splits; auto.
        - rewrite (labels_len _ _ _ _ _ LA). simpl in LB. lia.
        - eapply labels_spaced; eauto; [lia|]. destruct ED; auto. }
      assert (MAIN : forall is', labels_at b e (eol_of b (rstart (i_span x))) ps' is' -> _) by
        (intros is' LA; destruct (PI is' LA) as (_ & _ & LI & SP);
         exact (parts_iff b (secs_of (p :: ps') (gs1 :: gss')) bodies' gss' is' body1 gs1 (Some x) 0 (0 + 1) 1
           (eol_of b (rstart (i_span x))) test_new (mkState c3 (s_env s3)) F2' LI PO1
           (or_intror (conj eq_refl (ex_intro _ p eq_refl)))
           (fun k gs' K => NS (S k) gs' K) SP (proj2 ER) R3a R3b)).
      split.
      * intros out H. apply FH in H as (y & is' & s0 & out' & en' & LA & LE & -> & PH).
        apply labels_cons_inv in LA as (en9 & s9 & FY & LEY & LA').
        assert (y = x) by (eapply found_unique; eauto). subst y.
        rewrite <- (eol_of_eq _ _ _ LEY) in LA'. rewrite <- (eol_of_eq _ _ _ LE) in PH.
        destruct (PI is' LA') as (-> & RB & _). destruct (MAIN is' LA') as [FW _]. simpl s_env in FW.
        assert (E4 : s_env s3 = e) by congruence. rewrite <- E4 in PH. destruct (FW _ _ PH) as (t' & s' & X1 & X2 & X3).
        fold cur in D3. rewrite D3. cbn [bind]. rewrite R3. cbn [bind]. rewrite RB. unfold block_of in X1. fold cur in X1.
        rewrite X1. cbn [bind]. exists t'. auto.
      * intros t H N. fold cur in H. rewrite D3 in H. cbn [bind] in H. rewrite R3 in H. cbn [bind] in H.
        destruct er' as [|er er']; [|inj H; discriminate]. destruct (IM eq_refl) as (is' & LA). rewrite E2 in LA.
        destruct (PI is' LA) as (_ & RB & _). destruct (MAIN is' LA) as [_ BW]. simpl s_env in BW.
        rewrite RB in H. apply bind_val in H as ([t1 s4] & H & HH). injection HH as <-. unfold block_of in BW. fold cur in BW.
        destruct (BW _ _ H N) as (out & en' & PH & M). apply FH.
        assert (E4 : s_env s3 = e) by congruence. rewrite E4 in PH.
        exists x, is', (eol_of b (rstart (i_span x))), out, en'. splits; auto.
        -- econstructor; eauto. apply eol_of_ok. lia.
        -- apply eol_of_ok. lia.
    + destruct (discover_total b ps' gss' FS' ltac:(simpl in LG; lia) 1 (mkState c e) 0 [mkBlock None (0, 0 + 1) None None] ([] ++ [ENone]) AP)
        as (rb' & er' & s3 & D3 & E3 & K3 & C3 & IM).
      destruct (RESET s3 K3 C3) as (c3 & R3 & _). rewrite D3. cbn [bind]. rewrite R3. cbn [bind].
      apply discover_errors in D3 as (more & ->). simpl. split.
      * intros out H. apply FH in H as (y & is' & s0 & out' & en' & LA & _).
        inversion LA; subst. exfalso. eapply NF; eauto.
      * intros t H N. inj H. discriminate.
  - (* a first part *)
    assert (PNE : pre <> []) by (intros Q; apply PE in Q; discriminate).
    assert (DB : discover_blocks secs (mkState c e) =
      (do (rblocks, errors, s1) <- discover 0 secs (mkState c e) [mkBlock None (0, length pre) (Some 0) None] [];
       do c <- reset (s_cur s1); let s2 := mkState c (s_env s1) in
       Val (match errors with [] => inl (rev rblocks) | _ => inr errors end, s2))).
    { apply discover_blocks_first; auto. }
    rewrite DB. clear DB. unfold secs at 1 3. rewrite discover_groups. simpl plus.
    set (cur := mkBlock None (0, length pre) (Some 0) None).
    destruct (discover_total b ps gss FS LG (length pre) (mkState c e) 0 [cur] [] AP) as (rb' & er' & s3 & D3 & E3 & K3 & C3 & IM).
    destruct (RESET s3 K3 C3) as (c3 & R3 & R3a & R3b). rewrite D3. cbn [bind]. rewrite R3. cbn [bind]. simpl s_env in E3.
    assert (PI : forall is', labels_at b e 0 ps is' ->
         er' = [] /\ rev rb' = blocks_from b cur (length pre) is' /\ length is' = length bodies).
    { intros is' LA.
      destruct (discover_found b ps gss FS LG (length pre) (mkState c e) _ cur [] [] AP ltac:(discriminate) is' LA) as (s4 & D4 & _).
      rewrite D3 in D4. injection D4 as -> -> ->. rewrite app_nil_r, rev_involutive. splits; auto.
      rewrite (labels_len _ _ _ _ _ LA). lia. }
    assert (FH : forall out, file_holds b imp f e out <-> exists is en', labels_at b e 0 ps is /\ parts_hold b 0 (w :: ws) bodies is e out en').
    { intros out. unfold file_holds. rewrite W, PSD, BDD. cbv zeta. reflexivity. }
    assert (SG : sec_groups secs 0 (length pre) pre).
    { left. split; [|lia]. rewrite Nat.sub_0_r. simpl skipn. unfold secs. rewrite <- (map_length SGroup pre), firstn_app, Nat.sub_diag, firstn_all. simpl. apply app_nil_r. }
    assert (MAIN : forall is', labels_at b e 0 ps is' -> _) by
        (intros is' LA; destruct (PI is' LA) as (_ & _ & LI);
         exact (parts_iff b secs bodies gss is' (w :: ws) pre None 0 (length pre) (length pre)
           0 test_new (mkState c3 (s_env s3)) F2 LI PP SG NS (SPACED is' LA ltac:(discriminate)) (Nat.le_0_l _) R3a R3b)).
    split.
    + intros out H. apply FH in H as (is' & en' & LA & PH). destruct (PI is' LA) as (-> & RB & _).
      destruct (MAIN is' LA) as [FW _]. simpl s_env in FW. rewrite E3 in *.
      destruct (FW _ _ PH) as (t' & s' & X1 & X2 & X3). rewrite RB. unfold block_of in X1. fold cur in X1.
      rewrite X1. cbn [bind]. exists t'. auto.
    + intros t H N. destruct er' as [|er er']; [|inj H; discriminate]. destruct (IM eq_refl) as (is' & LA). simpl s_env in LA.
      destruct (PI is' LA) as (_ & RB & _). destruct (MAIN is' LA) as [_ BW]. simpl s_env in BW. rewrite E3 in *.
      rewrite RB in H. apply bind_val in H as ([t1 s4] & H & HH). injection HH as <-. unfold block_of in BW. fold cur in BW.
      destruct (BW _ _ H N) as (out & en' & PH & M). apply FH. exists is', en'. split; auto. simpl in M. rewrite M. exact PH.
Qed.
End Files.
