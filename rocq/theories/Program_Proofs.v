From Verif Require Import Base Text_Model Text_Spec Text_Proofs Cursor_Model Cursor_Spec Cursor_Proofs
  Check_Model Program_Model Check_Spec Check_Proofs.

(** * Items: maximal runs of directives *)
Inductive item (L : lang) :=
| INots (ps : list (pat L)) | IDags (ds : list (pat L)) (bounded : bool)
| IRule (r : rule L) | ICount (r : rule L) (n : nat).
Arguments INots {L}. Arguments IDags {L}. Arguments IRule {L}. Arguments ICount {L}.

Section Items.
Context {L : lang}.

Definition starts_touchy (its : list (item L)) : bool :=
  match its with IRule (RPlain _) :: _ => true | ICount _ _ :: _ => true | _ => false end.
Definition cons_line (l : line L) (its : list (item L)) : list (item L) :=
  let p := l_pat l in
  match l_kind l with
  | KNot => match its with INots ps :: r => INots (p :: ps) :: r | _ => INots [p] :: its end
  | KDag => match its with IDags ds bd :: r => IDags (p :: ds) bd :: r | _ => IDags [p] (starts_touchy its) :: its end
  | KCount n => ICount (RPlain p) n :: its
  | KPlain => IRule (RPlain p) :: its
  | KNext => IRule (RNext p) :: its
  | KSame => IRule (RSame p) :: its
  | KEmpty => IRule REmpty :: its
  | KLabel => its
  end.
Definition items_of (ls : list (line L)) : list (item L) := fold_right cons_line [] ls.

Fixpoint flat (g : group L) : list (item L) :=
  match g with
  | GNever ps => [INots ps]
  | GUnordered ds => [IDags ds false]
  | GBounded ds g' => IDags ds true :: flat g'
  | GOrdered rs => map IRule rs
  | GRepeated r n => [ICount r n]
  | GTree t => flat_tree t
  end
with flat_tree (t : tree L) : list (item L) :=
  match t with
  | TAll g => flat g
  | TAround root l r => flat_tree l ++ INots root :: flat_tree r
  | TBefore root l => flat_tree l ++ [INots root]
  | TAfter root r => INots root :: flat_tree r
  end.
Definition flats (gs : list (group L)) : list (item L) := flat_map flat gs.

(** Groups after which more may follow. *)
Definition simple (g : group L) : Prop :=
  match g with GOrdered rs => rs <> [] | GRepeated r n => n <> 0 | _ => False end.
Definition leaf (g : group L) : Prop :=
  match g with
  | GUnordered ds => ds <> []
  | GBounded ds g' => ds <> [] /\ simple g'
  | GOrdered rs => rs <> []
  | GRepeated r n => n <> 0
  | _ => False
  end.
Fixpoint opn_tree (t : tree L) : Prop :=
  match t with
  | TAll g => leaf g
  | TAround root l (TAll g) => root <> [] /\ opn_tree l /\ leaf g
  | TAfter root (TAll g) => root <> [] /\ leaf g
  | _ => False
  end.
Definition opn (g : group L) : Prop := match g with GTree t => opn_tree t | _ => leaf g end.
Definition closing (g : group L) : Prop :=
  match g with GNever ps => ps <> [] | GTree (TBefore root l) => root <> [] /\ opn_tree l | _ => opn g end.
(** The shape of the groups of a block, last group first. *)
Definition rshape (gs : list (group L)) : Prop :=
  match gs with [] => True | g :: r => closing g /\ Forall opn r end.

Lemma simple_wf g : simple g -> wf_group g.
Proof. destruct g; simpl; tauto. Qed.
Lemma leaf_wf g : leaf g -> wf_group g.
Proof.
  destruct g; intros H; try exact H; try contradiction. destruct H as [H1 H2]. exact (conj H1 (simple_wf _ H2)).
Qed.
Lemma opn_tree_wf : forall t, opn_tree t -> wf_tree t.
Proof.
  fix IH 1. intros [g|root l r|root l|root r] H.
  - exact (leaf_wf g H).
  - destruct r; try contradiction. destruct H as (? & ? & H). exact (conj (IH _ H1) (leaf_wf _ H)).
  - contradiction.
  - destruct r; try contradiction. destruct H as (? & H). exact (leaf_wf _ H).
Qed.
Lemma opn_wf g : opn g -> wf_group g.
Proof. destruct g; try apply leaf_wf. apply opn_tree_wf. Qed.
Lemma opn_closing g : opn g -> closing g.
Proof. destruct g as [| | | | |[]]; simpl; auto; tauto. Qed.

Lemma take_while_spec {A} (f : A -> bool) l a c : take_while f l = (a, c) ->
  l = a ++ c /\ Forall (fun x => f x = true) a /\ match c with [] => True | x :: _ => f x = false end.
Proof.
  revert a c; induction l as [|x r IH]; intros a c H; simpl in H.
  - inj H. auto.
  - destruct (f x) eqn:F.
    + destruct (take_while f r) as [a' c'] eqn:T. inj H. destruct (IH _ _ eq_refl) as (-> & ? & ?). auto.
    + inj H. splits; auto.
Qed.

Lemma items_nots p ls rest : Forall (fun l => is_kind_not l = true) ls ->
  match rest with [] => True | x :: _ => is_kind_not x = false /\ l_kind x <> KLabel end ->
  items_of (mkLine KNot p :: ls ++ rest) = INots (p :: map l_pat ls) :: items_of rest.
Proof.
  revert p. induction ls as [|l ls IH]; intros p F R.
  - destruct rest as [|[k q] r]; auto. destruct R as [R R2]. unfold is_kind_not in R. simpl in R, R2.
    change (items_of (mkLine KNot p :: [] ++ mkLine k q :: r)) with (cons_line (mkLine KNot p) (cons_line (mkLine k q) (items_of r))).
    change (items_of (mkLine k q :: r)) with (cons_line (mkLine k q) (items_of r)). generalize (items_of r). intros its.
    destruct k; try discriminate; try congruence; try reflexivity. destruct its as [|[]]; reflexivity.
  - inversion F; subst. destruct l as [k q]. unfold is_kind_not in H1. simpl in H1. destruct k; try discriminate.
    change (items_of (mkLine KNot p :: (mkLine KNot q :: ls) ++ rest)) with (cons_line (mkLine KNot p) (items_of (mkLine KNot q :: ls ++ rest))).
    rewrite (IH q H2 R). reflexivity.
Qed.

Definition line_touchy (rest : list (line L)) : bool :=
  match rest with l :: _ => match l_kind l with KPlain | KCount _ => true | _ => false end | [] => false end.
Lemma items_dags p ls rest : Forall (fun l => is_kind_dag l = true) ls ->
  match rest with [] => True | x :: _ => is_kind_dag x = false /\ l_kind x <> KLabel end ->
  items_of (mkLine KDag p :: ls ++ rest) = IDags (p :: map l_pat ls) (line_touchy rest) :: items_of rest.
Proof.
  revert p. induction ls as [|l ls IH]; intros p F R.
  - destruct rest as [|[k q] r]; auto. destruct R as [R R2]. unfold is_kind_dag in R. simpl in R, R2.
    change (items_of (mkLine KDag p :: [] ++ mkLine k q :: r)) with (cons_line (mkLine KDag p) (cons_line (mkLine k q) (items_of r))).
    change (items_of (mkLine k q :: r)) with (cons_line (mkLine k q) (items_of r)). generalize (items_of r). intros its.
    destruct k; try discriminate; try congruence; try reflexivity. destruct its as [|[]]; reflexivity.
  - inversion F; subst. destruct l as [k q]. unfold is_kind_dag in H1. simpl in H1. destruct k; try discriminate.
    change (items_of (mkLine KDag p :: (mkLine KDag q :: ls) ++ rest)) with (cons_line (mkLine KDag p) (items_of (mkLine KDag q :: ls ++ rest))).
    rewrite (IH q H2 R). reflexivity.
Qed.

Lemma items_rules ls rest : Forall (fun l => in_ordered l = true) ls -> Forall (fun l : line L => l_kind l <> KLabel) ls ->
  exists rs, compile_rules ls = Val rs /\ length rs = length ls /\ items_of (ls ++ rest) = map IRule rs ++ items_of rest.
Proof.
  induction ls as [|l ls IH]; intros F N.
  - exists []. auto.
  - inversion F; subst. inversion N; subst. destruct (IH H2 H4) as (rs & C & LN & I).
    destruct l as [k p]. unfold in_ordered in H1. simpl in H1, H3.
    assert (X : exists r, compile_rule (mkLine k p) = Val r /\ forall its, cons_line (mkLine k p) its = IRule r :: its).
    { destruct k; try discriminate; try congruence; simpl; eexists; split; reflexivity. }
    destruct X as (r & C1 & C2). exists (r :: rs). cbn [compile_rules]. rewrite C1, C. cbn [bind]. splits; simpl; auto.
    change (items_of ((mkLine k p :: ls) ++ rest)) with (cons_line (mkLine k p) (items_of (ls ++ rest))).
    rewrite C2, I. reflexivity.
Qed.

Definition flat_pending (pend : pending (L:=L)) : list (item L) :=
  match pend with
  | Some (Some t, root) => flat_tree t ++ [INots root]
  | Some (None, root) => [INots root]
  | None => []
  end.
Definition pend_ok (pend : pending (L:=L)) : Prop :=
  match pend with
  | Some (Some t, root) => opn_tree t /\ root <> []
  | Some (None, root) => root <> []
  | None => True
  end.

Lemma flats_app a c : flats (a ++ c) = flats a ++ flats c.
Proof. unfold flats. now rewrite flat_map_app. Qed.

Lemma push_group_ok g pend groups : leaf g -> pend_ok pend -> Forall opn groups ->
  Forall opn (push_group g pend groups) /\
  flats (rev (push_group g pend groups)) = flats (rev groups) ++ flat_pending pend ++ flat g.
Proof.
  intros G P F. destruct pend as [[[t|] root]|]; simpl in P |- *.
  - destruct P as [? ?]. split; [constructor; simpl; auto|]. rewrite flats_app. simpl. rewrite app_nil_r, <- app_assoc. reflexivity.
  - split; [constructor; simpl; auto|]. rewrite flats_app. simpl. now rewrite app_nil_r.
  - split; [constructor; [destruct g; auto; contradiction|auto]|]. rewrite flats_app. simpl. now rewrite app_nil_r.
Qed.

Definition counts_ok (ls : list (line L)) : Prop := Forall (fun l => l_kind l <> KCount 0) ls.
Definition unlabelled (ls : list (line L)) : Prop := Forall (fun l => l_kind l <> KLabel) ls.

Lemma compile_body_ok fuel : forall body pend groups,
  length body <= fuel -> unlabelled body -> counts_ok body -> pend_ok pend -> Forall opn groups ->
  match pend, body with Some _, [] => False | Some _, l :: _ => l_kind l <> KNot | None, _ => True end ->
  exists groups', compile_body fuel body pend groups = Val (None, groups') /\ rshape groups' /\
    flats (rev groups') = flats (rev groups) ++ flat_pending pend ++ items_of body.
Proof.
  induction fuel as [|fuel IH]; intros body pend groups LN U C P F B.
  - destruct body; [|simpl in LN; lia]. destruct pend; [contradiction|]. exists groups. simpl. rewrite app_nil_r. splits; auto.
    destruct F; simpl; auto using opn_closing.
  - destruct body as [|l body].
    { destruct pend; [contradiction|]. exists groups. simpl. rewrite app_nil_r. splits; auto.
      destruct F; simpl; auto using opn_closing. }
    inversion U as [|? ? U1 U2]; subst. inversion C as [|? ? C1 C2]; subst. simpl in LN.
    destruct l as [k p]. simpl in U1, C1.
    assert (ORD : in_ordered (mkLine k p) = true ->
      exists groups', (let (now, rest) := take_while in_ordered (mkLine k p :: body) in
          do rs <- compile_rules now;
          compile_body fuel rest None (push_group (GOrdered rs) pend groups)) = Val (None, groups') /\ rshape groups' /\
    flats (rev groups') = flats (rev groups) ++ flat_pending pend ++ items_of (mkLine k p :: body)).
    { intros IO. destruct (take_while in_ordered (mkLine k p :: body)) as [now rest] eqn:T.
      apply take_while_spec in T as (EQ & TF & TR).
      assert (N : Forall (fun l => l_kind l <> KLabel) now) by (unfold unlabelled in U; rewrite EQ in U; now apply Forall_app in U as [U _]).
      destruct (items_rules now rest TF N) as (rs & CR & LR & I). rewrite CR. cbn [bind].
      assert (now <> []). { intros ->. simpl in EQ. subst rest. congruence. }
      assert (rs <> []) by (destruct rs; [destruct now; [congruence|discriminate]|discriminate]).
      destruct (push_group_ok (GOrdered rs) pend groups) as [F' FL]; auto.
      destruct (IH rest None (push_group (GOrdered rs) pend groups)) as (groups' & CB & SH & FF); try solve [simpl; auto; lia].
      - assert (length (mkLine k p :: body) = length (now ++ rest)) by (now rewrite EQ). rewrite app_length in H1. simpl in H1.
        destruct now; [congruence|]. simpl in *. lia.
      - unfold unlabelled in *. rewrite EQ in U. now apply Forall_app in U as [_ U].
      - unfold counts_ok in *. rewrite EQ in C. now apply Forall_app in C as [_ C].
      - exists groups'. splits; auto. rewrite FF, FL, EQ, I. simpl. now rewrite <- !app_assoc. }
    cbn [compile_body l_kind l_pat].
    destruct k; try (apply ORD; reflexivity); try congruence.
    + (* count *)
      cbn [compile_rule l_kind l_pat bind].
      destruct (push_group_ok (GRepeated (RPlain p) n) pend groups) as [F' FL]; auto. { simpl. congruence. }
      destruct (IH body None (push_group (GRepeated (RPlain p) n) pend groups)) as (groups' & CB & SH & FF); try solve [simpl; auto; lia].
      exists groups'. splits; auto. rewrite FF, FL. simpl. unfold cons_line at 1. simpl. now rewrite <- !app_assoc.
    + (* not *)
      destruct pend as [pp|]; [simpl in B; congruence|]. simpl in B. cbn [assert bind].
      destruct (take_while is_kind_not body) as [more rest] eqn:T. apply take_while_spec in T as (EQ & TF & TR). subst body.
      assert (R : match rest with [] => True | x :: _ => is_kind_not x = false /\ l_kind x <> KLabel end).
      { destruct rest; auto. split; auto. apply Forall_app in U2 as [_ U2]. now inversion U2. }
      rewrite (items_nots p more rest TF R). 
      assert (NN : p :: map l_pat more <> []) by discriminate.
      set (nots := p :: map l_pat more) in *. change (map l_pat (mkLine KNot p :: more)) with nots.
      destruct rest as [|x rest].
      * simpl items_of. destruct fuel; cbn [compile_body].
        -- exists (match groups with
                | GTree t :: gs => GTree (TBefore nots t) :: gs
                | GUnordered ds :: gs => GTree (TBefore nots (TAll (GUnordered ds))) :: gs
                | g :: gs => GNever nots :: g :: gs
                | [] => [GNever nots]
                end). split; [reflexivity|].
           destruct F as [|g gs G F]; [simpl; auto|].
           destruct g; simpl in G |- *; splits; auto; rewrite ?flats_app; simpl; rewrite ?app_nil_r, <- ?app_assoc; auto.
        -- exists (match groups with
                | GTree t :: gs => GTree (TBefore nots t) :: gs
                | GUnordered ds :: gs => GTree (TBefore nots (TAll (GUnordered ds))) :: gs
                | g :: gs => GNever nots :: g :: gs
                | [] => [GNever nots]
                end). split; [reflexivity|].
           destruct F as [|g gs G F]; [simpl; auto|].
           destruct g; simpl in G |- *; splits; auto; rewrite ?flats_app; simpl; rewrite ?app_nil_r, <- ?app_assoc; auto.
      * assert (LX : length (x :: rest) <= fuel) by (rewrite app_length in LN; simpl in *; lia).
        assert (KX : l_kind x <> KNot). { destruct R as [R _]. unfold is_kind_not in R. intros K. rewrite K in R. discriminate. }
        apply Forall_app in U2 as [_ U2]. apply Forall_app in C2 as [_ C2].
        assert (GEN : forall o gs, match o with Some t => opn_tree t | None => True end -> Forall opn gs ->
           exists groups', compile_body fuel (x :: rest) (Some (o, nots)) gs = Val (None, groups') /\ rshape groups' /\
             flats (rev groups') = flats (rev gs) ++ (match o with Some t => flat_tree t | None => [] end) ++ INots nots :: items_of (x :: rest)).
        { intros o gs O FG. destruct (IH (x :: rest) (Some (o, nots)) gs) as (groups' & CB & SH & FF); auto.
          - destruct o; simpl; auto.
          - exists groups'. splits; auto. rewrite FF. destruct o; simpl; rewrite <- ?app_assoc; auto. }
        destruct F as [|g gs G F].
        -- apply (GEN None []); simpl; auto.
        -- destruct g.
           ++ destruct (GEN None (GNever ps :: gs)) as (gr & H); simpl; auto. exists gr. exact H.
           ++ destruct (GEN (Some (TAll (GUnordered ds))) gs) as (gr & H1 & H2 & H3); simpl; auto. exists gr. splits; auto.
              rewrite H3. simpl. rewrite flats_app. simpl. now rewrite <- !app_assoc.
           ++ destruct (GEN None (GBounded ds g :: gs)) as (gr & H); simpl; auto. exists gr. exact H.
           ++ destruct (GEN None (GOrdered rs :: gs)) as (gr & H); simpl; auto. exists gr. exact H.
           ++ destruct (GEN None (GRepeated r count :: gs)) as (gr & H); simpl; auto. exists gr. exact H.
           ++ destruct (GEN (Some t) gs) as (gr & H1 & H2 & H3); simpl; auto. exists gr. splits; auto.
              rewrite H3. simpl. rewrite flats_app. simpl. now rewrite app_nil_r, <- !app_assoc.
    + (* dag *)
      destruct (take_while is_kind_dag body) as [more rest] eqn:T. apply take_while_spec in T as (EQ & TF & TR). subst body.
      assert (R : match rest with [] => True | x :: _ => is_kind_dag x = false /\ l_kind x <> KLabel end).
      { destruct rest; auto. split; auto. apply Forall_app in U2 as [_ U2]. now inversion U2. }
      rewrite (items_dags p more rest TF R).
      assert (NN : p :: map l_pat more <> []) by discriminate.
      set (dags := p :: map l_pat more) in *. change (map l_pat (mkLine KDag p :: more)) with dags.
      apply Forall_app in U2 as [_ U2]. apply Forall_app in C2 as [_ C2]. rewrite app_length in LN.
      assert (GEN : forall g rest', leaf g -> flat g ++ items_of rest' = IDags dags (line_touchy rest) :: items_of rest ->
        length rest' <= length rest -> unlabelled rest' -> counts_ok rest' ->
        exists groups', compile_body fuel rest' None (push_group g pend groups) = Val (None, groups') /\ rshape groups' /\
          flats (rev groups') = flats (rev groups) ++ flat_pending pend ++ IDags dags (line_touchy rest) :: items_of rest).
      { intros g rest' OG FLG LL U' C'. destruct (push_group_ok g pend groups) as [F' FL]; auto.
        destruct (IH rest' None (push_group g pend groups)) as (groups' & CB & SH & FF); try solve [simpl; auto; lia].
        exists groups'. splits; auto. rewrite FF, FL, <- FLG. simpl. now rewrite <- !app_assoc. }
      destruct rest as [|[k2 p2] rest].
      * apply (GEN (GUnordered dags) []); simpl; auto.
      * inversion U2; subst. inversion C2; subst. simpl in *.
        destruct k2; cbn [l_kind]; try (apply (GEN (GUnordered dags) (mkLine _ p2 :: rest)); simpl; auto; fail).
        -- cbn [compile_rule l_kind l_pat bind].
           apply (GEN (GBounded dags (GOrdered [RPlain p2])) rest); simpl; auto. split; auto. discriminate.
        -- cbn [compile_rule l_kind l_pat bind].
           apply (GEN (GBounded dags (GRepeated (RPlain p2) n)) rest); simpl; auto; split; auto; congruence.
Qed.

Lemma compile_block_ok label body : unlabelled body -> counts_ok body ->
  exists groups, rshape (rev groups) /\ flats groups = items_of body /\
    compile_block (label, body) = Val (match label with Some l => [SBlock (l_pat l) groups] | None => map SGroup groups end).
Proof.
  intros U C. destruct (compile_body_ok (length body) body None []) as (groups & CB & SH & FF); simpl; auto.
  exists (rev groups). rewrite rev_involutive. splits; auto. unfold compile_block. rewrite CB. reflexivity.
Qed.
End Items.

(** * What a list of items computes *)
Section Run.
Context {L : lang} (LO : lang_ok L).
Variables (b : bytes) (E : nat).
Hypothesis BE : block_end_ok b E.

Definition nots_ok (ps : list (pat L)) (s e : nat) (en : env L) : bool :=
  match ps with [] => true | _ => absentb b ps s e en end.
Definition gap (strict : bool) (pos : nat) (o : list minfo) : bool := (negb strict || (pos <? first_start o))%bool.

Fixpoint irun (its : list (item L)) (pend : list (pat L)) (strict : bool) (pos : nat) (en : env L)
  : option (list minfo * env L) :=
  match its with
  | [] => if nots_ok pend pos E en then Some ([], en) else None
  | INots ps :: r => irun r (pend ++ ps) strict pos en
  | IRule x :: r =>
      match rules_run b E [x] pos en with
      | Some (o, en1) =>
          if (nots_ok pend pos (first_start o) en1 && gap strict pos o)%bool
          then match irun r [] false (last_end pos o) en1 with
               | Some (o2, en2) => Some (o ++ o2, en2) | None => None end
          else None
      | None => None
      end
  | ICount x n :: r =>
      match rules_run b E (repeat x n) pos en with
      | Some (o, en1) =>
          if (nots_ok pend pos (first_start o) en1 && gap strict pos o)%bool
          then match irun r [] false (last_end pos o) en1 with
               | Some (o2, en2) => Some (o ++ o2, en2) | None => None end
          else None
      | None => None
      end
  | IDags ds bd :: r =>
      match dag_run b E ds pos en with
      | Some (o, en1) =>
          if nots_ok pend pos (first_start o) en1
          then match irun r [] bd (last_end pos o) en1 with
               | Some (o2, en2) => Some (o ++ o2, en2) | None => None end
          else None
      | None => None
      end
  end.

(** A state at a given position. *)
Definition st_at (pos : nat) (en : env L) : state L := mkState (mkCursor b (mkRange pos E) (eol_of b pos) false) en.
Lemma st_at_ok pos en : pos <= E -> st_ok b E (st_at pos en).
Proof.
  intros H. pose proof (E_len b E BE). split; [|split; auto]. split; auto.
  split; [change (pos <= E <= length b); lia|]. exists (eol_of b pos). split; [apply eol_of_ok; lia|]. left. reflexivity.
Qed.

Lemma grun_in (g : group L) pos en o en' : wf_group g -> pos <= E -> grun b E g pos en = Some (o, en') ->
  in_order pos o /\ o <> [] /\ pos <= first_start o <= last_end pos o /\ last_end pos o <= E.
Proof.
  intros W P H. pose proof (proj1 (check_run LO b E BE) g W (st_at pos en) (st_at_ok pos en P) test_new) as D.
  change (pos_of (st_at pos en)) with pos in D. change (s_env (st_at pos en)) with en in D. rewrite H in D.
  destruct D as (mss & t' & s' & _ & _ & _ & FG & NE & IO & O & ST & P' & _).
  assert (o <> []) by (rewrite <- IO; apply infoss_nonempty; auto).
  pose proof (in_order_first _ _ O H0). pose proof (st_pos b E BE s' ST). rewrite P' in H2. splits; auto; lia.
Qed.
Lemma trun_in (t : tree L) pos en o en' : wf_tree t -> pos <= E -> trun b E t pos en = Some (o, en') ->
  in_order pos o /\ o <> [] /\ pos <= first_start o <= last_end pos o /\ last_end pos o <= E.
Proof. intros W P H. exact (grun_in (GTree t) pos en o en' W P H). Qed.
Lemma rules_run_in (rs : list (rule L)) pos en o en' : rs <> [] -> pos <= E -> rules_run b E rs pos en = Some (o, en') ->
  in_order pos o /\ o <> [] /\ pos <= first_start o <= last_end pos o /\ last_end pos o <= E.
Proof. intros W P H. exact (grun_in (GOrdered rs) pos en o en' W P H). Qed.
Lemma dag_run_in (ds : list (pat L)) pos en o en' : ds <> [] -> pos <= E -> dag_run b E ds pos en = Some (o, en') ->
  in_order pos o /\ o <> [] /\ pos <= first_start o <= last_end pos o /\ last_end pos o <= E.
Proof. intros W P H. exact (grun_in (GUnordered ds) pos en o en' W P H). Qed.

Lemma absentb_static (ps : list (pat L)) lo hi en1 en2 : lo <= hi <= length b ->
  absentb b ps lo hi en1 = absentb b ps lo hi en2.
Proof.
  intros H. unfold absentb.
  destruct (ok_nm L LO ps b lo hi en1 H) as (m1 & M1 & _). destruct (ok_nm L LO ps b lo hi en2 H) as (m2 & M2 & _).
  rewrite M1, M2. f_equal. eapply (ok_nm_static L LO); eauto.
Qed.
Lemma nots_static (ps : list (pat L)) lo hi en1 en2 : lo <= hi <= length b -> nots_ok ps lo hi en1 = nots_ok ps lo hi en2.
Proof. intros H. destruct ps; auto. simpl. now apply absentb_static. Qed.

Definition then_run (o : list minfo) (x : option (list minfo * env L)) : option (list minfo * env L) :=
  match x with Some (o2, en2) => Some (o ++ o2, en2) | None => None end.
Lemma then_run_app o1 o2 x : then_run o1 (then_run o2 x) = then_run (o1 ++ o2) x.
Proof. destruct x as [[o3 en]|]; simpl; auto. now rewrite app_assoc. Qed.

(** After a group, whatever follows. *)
Definition follows (run : option (list minfo * env L)) pend strict pos (k : nat -> env L -> option (list minfo * env L)) :=
  match run with
  | Some (o, en') => if (nots_ok pend pos (first_start o) en' && gap strict pos o)%bool
                     then then_run o (k (last_end pos o) en') else None
  | None => None
  end.

Lemma irun_rules (rs : list (rule L)) rest : forall pend strict pos en, rs <> [] -> pos <= E ->
  irun (map IRule rs ++ rest) pend strict pos en =
  follows (rules_run b E rs pos en) pend strict pos (irun rest [] false).
Proof.
  pose proof (E_len b E BE) as EL.
  induction rs as [|r rs IH]; intros pend strict pos en NE P; [congruence|].
  cbn [map app irun]. destruct rs as [|r2 rs].
  - reflexivity.
  - change (rules_run b E [r] pos en) with (match rule_run b E r pos en with Some (i, en1) => Some ([i], en1) | None => None end).
    change (rules_run b E (r :: r2 :: rs) pos en) with (match rule_run b E r pos en with
      | Some (i, en1) => match rules_run b E (r2 :: rs) (rend (i_span i)) en1 with
                         | Some (is, en2) => Some (i :: is, en2) | None => None end
      | None => None end).
    destruct (rule_run b E r pos en) as [[i en1]|] eqn:R; [|reflexivity].
    pose proof (rules_run_in [r] pos en [i] en1 ltac:(discriminate) P) as X.
    cbn [rules_run] in X. rewrite R in X. specialize (X eq_refl). simpl in X. destruct X as (_ & _ & X1 & X2).
    change (IRule r2 :: map IRule rs ++ rest) with (map IRule (r2 :: rs) ++ rest).
    rewrite IH by (try discriminate; simpl; lia). cbn [last_end].
    destruct (rules_run b E (r2 :: rs) (rend (i_span i)) en1) as [[is en2]|] eqn:R2.
    + unfold follows. cbn [first_start].
      rewrite (nots_static pend pos (rstart (i_span i)) en2 en1) by lia.
      change (gap strict pos (i :: is)) with (gap strict pos [i]).
      destruct (_ && _)%bool; auto. cbn [nots_ok gap negb orb andb last_end].
      destruct (irun rest [] false (last_end (rend (i_span i)) is) en2) as [[? ?]|]; reflexivity.
    + unfold follows. destruct (_ && _)%bool; auto.
Qed.

Lemma irun_simple (g : group L) rest pend strict pos en : simple g -> pos <= E ->
  irun (flat g ++ rest) pend strict pos en = follows (grun b E g pos en) pend strict pos (irun rest [] false).
Proof.
  intros S P. destruct g; simpl in S; try contradiction.
  - apply irun_rules; auto.
  - reflexivity.
Qed.

Lemma irun_leaf (g : group L) rest pend pos en : leaf g -> pos <= E ->
    irun (flat g ++ rest) pend false pos en = follows (grun b E g pos en) pend false pos (irun rest [] false).
Proof.
  pose proof (E_len b E BE) as EL. intros W P. destruct g as [|ds|ds g|rs|r n|]; simpl in W; try tauto.
  - cbn [flat app irun grun]. unfold follows. destruct (dag_run b E ds pos en) as [[o en1]|]; auto.
    simpl gap. rewrite andb_true_r. reflexivity.
  - destruct W as [W S]. cbn [flat app irun grun].
    destruct (dag_run b E ds pos en) as [[o en1]|] eqn:D; auto.
    pose proof (dag_run_in ds pos en o en1 W P D) as (X0 & NO & X1 & X2).
    rewrite irun_simple by auto. destruct (grun b E g (last_end pos o) en1) as [[o2 en2]|] eqn:G.
    + pose proof (grun_in g _ en1 o2 en2 (simple_wf g S) X2 G) as (Y0 & NO2 & Y1 & Y2).
      unfold follows at 1. simpl nots_ok. cbn [andb]. unfold gap at 1. cbn [negb orb].
      assert (FS : first_start (o ++ o2) = first_start o) by (destruct o; [congruence|auto]).
      destruct (last_end pos o <? first_start o2) eqn:TT.
      * unfold follows. rewrite FS. simpl gap. rewrite andb_true_r.
        rewrite (nots_static pend pos (first_start o) en2 en1) by lia.
        destruct (nots_ok _ _ _ _); auto. rewrite last_end_app.
        exact (then_run_app o o2 (irun rest [] false (last_end (last_end pos o) o2) en2)).
      * simpl. destruct (nots_ok _ _ _ _); auto.
    + simpl. destruct (nots_ok _ _ _ _); auto.
  - apply irun_rules; auto.
Qed.

Lemma trun_around root (l : tree L) g pos en : trun b E (TAround root l (TAll g)) pos en =
  match trun b E l pos en with
  | Some (o1, en1) =>
      match grun b E g (last_end pos o1) en1 with
      | Some (o2, en2) => if absentb b root (last_end pos o1) (first_start o2) en2 then Some (o1 ++ o2, en2) else None
      | None => None
      end
  | None => None
  end.
Proof. reflexivity. Qed.
Lemma trun_after root (g : group L) pos en : trun b E (TAfter root (TAll g)) pos en =
  match grun b E g pos en with
  | Some (o2, en2) => if absentb b root pos (first_start o2) en2 then Some (o2, en2) else None
  | None => None
  end.
Proof. reflexivity. Qed.

Lemma irun_tree : forall t : tree L, opn_tree t -> forall rest pos en, pos <= E ->
    irun (flat_tree t ++ rest) [] false pos en = follows (trun b E t pos en) [] false pos (irun rest [] false).
Proof.
  pose proof (E_len b E BE) as EL.
  fix IHl 1. intros [g|root l r|root l|root r] W rest pos en P.
  - apply irun_leaf; auto.
  - destruct r as [g| | |]; simpl in W; try tauto. destruct W as (NR & Wl & Wr). rewrite trun_around. cbn [flat_tree].
    rewrite <- app_assoc. rewrite IHl by auto. destruct (trun b E l pos en) as [[o en1]|] eqn:D; auto.
    pose proof (trun_in l pos en o en1 (opn_tree_wf _ Wl) P D) as (X0 & NO & X1 & X2).
    unfold follows at 1. cbn [app irun]. rewrite irun_leaf by auto.
    destruct (grun b E g (last_end pos o) en1) as [[o2 en2]|] eqn:G.
    + pose proof (grun_in g _ en1 o2 en2 (leaf_wf _ Wr) X2 G) as (Y0 & NO2 & Y1 & Y2).
      unfold follows at 1.
      replace (nots_ok root (last_end pos o) (first_start o2) en2) with (absentb b root (last_end pos o) (first_start o2) en2)
        by (destruct root; [congruence|auto]).
      simpl gap. rewrite !andb_true_r. destruct (absentb b root (last_end pos o) (first_start o2) en2).
      * unfold follows. cbn [nots_ok gap negb orb andb]. rewrite last_end_app. exact (then_run_app o o2 (irun rest [] false (last_end (last_end pos o) o2) en2)).
      * reflexivity.
    + reflexivity.
  - simpl in W. tauto.
  - destruct r as [g| | |]; simpl in W; try tauto. destruct W as (NR & Wr). rewrite trun_after. cbn [flat_tree app irun].
    rewrite irun_leaf by auto. destruct (grun b E g pos en) as [[o2 en2]|] eqn:G; auto. unfold follows.
    replace (nots_ok root pos (first_start o2) en2) with (absentb b root pos (first_start o2) en2)
        by (destruct root; [congruence|auto]).
    simpl gap. rewrite !andb_true_r. destruct (absentb _ _ _ _ _); reflexivity.
Qed.

Lemma irun_opn (g : group L) : opn g -> forall rest pos en, pos <= E ->
    irun (flat g ++ rest) [] false pos en = follows (grun b E g pos en) [] false pos (irun rest [] false).
Proof.
  intros W rest pos en P. destruct g; try (apply irun_leaf; auto; fail). apply (irun_tree t W); auto.
Qed.

(** The groups of a block compute what their items compute. *)
Lemma gsrun_irun (gs : list (group L)) : forall pos en, rshape (rev gs) -> pos <= E ->
  gsrun b E gs pos en = irun (flats gs) [] false pos en.
Proof.
  induction gs as [|g gs IH]; intros pos en S P; [reflexivity|].
  assert (OP : opn g -> rshape (rev gs) -> gsrun b E (g :: gs) pos en = irun (flats (g :: gs)) [] false pos en).
  { intros O S'. change (flats (g :: gs)) with (flat g ++ flats gs). rewrite irun_opn by auto.
    replace (gsrun b E (g :: gs) pos en) with (match grun b E g pos en with
      | Some (o1, en1) => then_run o1 (gsrun b E gs (last_end pos o1) en1) | None => None end).
    2:{ destruct g; try reflexivity. simpl in O. tauto. }
    destruct (grun b E g pos en) as [[o en1]|] eqn:G; auto.
    pose proof (grun_in g pos en o en1 (opn_wf g O) P G) as (_ & _ & _ & X2). rewrite IH by auto. reflexivity. }
  destruct gs as [|g2 gs].
  - simpl in S. destruct S as [C _]. destruct g as [ps| | | | |t]; try (apply OP; simpl; auto; fail).
    + simpl. simpl in C. destruct ps; [congruence|]. reflexivity.
    + destruct t as [| |root l|]; try (apply OP; simpl; auto; fail).
      destruct C as [NR W]. clear OP IH. unfold flats. cbn [flat_map flat flat_tree].
      rewrite app_nil_r. rewrite irun_tree by auto.
      change (gsrun b E [GTree (TBefore root l)] pos en) with
        (match (match trun b E l pos en with
          | Some (o1, en1) => if absentb b root (last_end pos o1) E en1 then Some (o1, en1) else None
          | None => None end) with
         | Some (o1, en1) => Some (o1 ++ [], en1) | None => None end).
      destruct (trun b E l pos en) as [[o en1]|]; auto. unfold follows. cbn [nots_ok gap negb orb andb irun app].
      replace (nots_ok root (last_end pos o) E en1) with (absentb b root (last_end pos o) E en1)
        by (destruct root; [congruence|auto]).
      destruct (absentb _ _ _ _ _); reflexivity.
  - simpl rev in S. destruct (rev gs ++ [g2]) as [|x xs] eqn:R; [destruct (rev gs); discriminate|].
    simpl in S. destruct S as [C F]. apply Forall_app in F as [F1 F2]. inversion F2; subst. apply OP; auto.
    simpl. rewrite R. simpl. auto.
Qed.
End Run.
