(** C13-C19: check files of literal patterns. *)
From Coq Require Import String.
From Verif Require Import Base Text_Model Text_Spec Text_Proofs Cursor_Model Cursor_Spec Cursor_Proofs
  Check_Model Program_Model Check_Spec Check_Proofs Program_Proofs Accept_Proofs File_Spec File_Proofs File_Props
  Compose_Proofs Lit_Model Lit_Spec Lit_Proofs.

(** Strings and patterns for the examples. *)
Definition lp (s : string) (at_ : nat) : lit :=
  match of_string s with x :: r => mkLit x r at_ | [] => mkLit 0%N [] at_ end.
Definition nl : string := String (Ascii.ascii_of_nat 10) EmptyString.

Lemma readable_incl ci b (ls ls' : list (line (lit_lang ci))) : incl ls' ls -> readable b ls -> readable b ls'.
Proof. intros I [H|H]; [now left|right]. intros l X. apply H, I, X. Qed.
(** C22 for literals and no labels. *)
Lemma passes_accepts ci allow ls b out : readable b ls -> flat_ok ls -> ls <> [] -> b <> [] \/ allow = true -> anchored ls ->
  passes ci allow None ls b out <-> accepts (L:=lit_lang ci) b (length b) ls [] false 0 tt out tt.
Proof.
  intros A1 A2 A3 A4 A5. pose proof (C22_flat (lit_lang_ok ci) allow ls b tt A1 A2 A3 A4 A5 out) as H.
  unfold passes. rewrite <- H. split; [intros ([] & X); exact X|intros X; exists tt; exact X].
Qed.
Lemma plain_flat_ok ci (ps : list lit) : flat_ok (L:=lit_lang ci) (map (mkLine (L:=lit_lang ci) KPlain) ps).
Proof. intros l I. apply in_map_iff in I as (p & <- & _). split; discriminate. Qed.
Lemma plain_anchored ci (ps : list lit) : anchored (L:=lit_lang ci) (map (mkLine (L:=lit_lang ci) KPlain) ps).
Proof.
  intros pre l post E D. exfalso. assert (I : In l (map (mkLine (L:=lit_lang ci) KPlain) ps)) by (rewrite E; apply in_or_app; simpl; auto).
  apply in_map_iff in I as (p & <- & _). destruct D as [D|[D|D]]; discriminate.
Qed.

Lemma in_sequence_weaken ci b ps : forall s s' is, s' <= s -> in_sequence ci b ps s is -> in_sequence ci b ps s' is.
Proof.
  destruct ps as [|p ps]; intros s s' [|i is] H K; simpl in *; auto. destruct K as ((A & B & C) & K). split; auto. split; auto. lia.
Qed.
Lemma accepts_plain ci b ps : forall pos out, pos <= length b ->
  accepts (L:=lit_lang ci) b (length b) (map (mkLine (L:=lit_lang ci) KPlain) ps) [] false pos tt out tt <->
  exists is, in_sequence ci b ps pos is /\ out = infos_at ps is /\ forall is', in_sequence ci b ps pos is' -> Forall2 le is is'.
Proof.
  induction ps as [|p ps IH]; intros pos out P.
  - split.
    + intros H. inversion H; subst.
      * exists []. simpl. splits; auto. intros [|i is'] K; [constructor|contradiction].
      * exfalso. match goal with E : map _ _ ++ _ = [] |- _ => destruct ds; [congruence|discriminate] end.
    + intros ([|i is] & K & -> & _); [|contradiction]. constructor. left. reflexivity.
  - split.
    + intros H. inversion H; subst.
      * match goal with F : fires _ _ _ _ _ _ _ _ |- _ => inversion F; subst; clear F end.
        match goal with F : found _ _ _ _ _ _ _ |- _ => apply found_lit in F as (k & FO & ->); auto end.
        pose proof FO as ((O1 & O2 & O3) & M).
        match goal with A : accepts _ _ _ _ _ _ _ _ _ |- _ =>
          destruct en1; apply IH in A as (is & SQ & -> & MI); [|simpl; exact O2] end.
        exists (k :: is). splits.
        -- split; auto. split; auto.
        -- reflexivity.
        -- intros [|i' is'] K; [contradiction|]. destruct K as [K1 K2]. specialize (M _ K1). constructor; auto.
           apply MI. eapply in_sequence_weaken; [|exact K2]. simpl. lia.
      * exfalso. destruct ds as [|d ds]; [congruence|discriminate].
    + intros ([|i is] & K & -> & MI); [contradiction|]. destruct K as [K1 K2].
      destruct (occurrence_first ci b p pos (length b) i P K1) as (k & FO).
      assert (k = i).
      { pose proof FO as [O M]. specialize (M _ K1).
        assert (SQ : in_sequence ci b (p :: ps) pos (k :: is)) by (split; auto; eapply in_sequence_weaken; [|exact K2]; lia).
        specialize (MI _ SQ). inversion MI; subst. lia. }
      subst k. change (infos_at (p :: ps) (i :: is)) with ([lit_info p i] ++ infos_at ps is).
      eapply A_pos with (en1 := tt).
      * constructor. apply found_lit; auto. eauto.
      * left. reflexivity.
      * discriminate.
      * simpl. apply IH; [destruct K1 as (_ & Q & _); simpl in Q; lia|]. exists is. splits; auto.
        intros is' K'. assert (SQ : in_sequence ci b (p :: ps) pos (i :: is')) by (split; auto).
        specialize (MI _ SQ). now inversion MI.
Qed.

Lemma sequence_earliest ci b ps : forall pos is, pos <= length b -> in_sequence ci b ps pos is ->
  exists is0, in_sequence ci b ps pos is0 /\ forall is', in_sequence ci b ps pos is' -> Forall2 le is0 is'.
Proof.
  induction ps as [|p ps IH]; intros pos [|i is] P K; try contradiction.
  - exists []. split; auto. intros [|] K'; [constructor|contradiction].
  - destruct K as [K1 K2]. destruct (occurrence_first ci b p pos (length b) i P K1) as (k & FO).
    pose proof FO as [O M]. pose proof (M _ K1) as KI.
    destruct (IH (k + length (lit_text p)) is) as (is0 & S0 & M0); [apply O|eapply in_sequence_weaken; [|exact K2]; lia|].
    exists (k :: is0). split; [split; auto|]. intros [|i' is'] K'; [contradiction|]. destruct K' as [K3 K4].
    pose proof (M _ K3). constructor; auto. apply M0. eapply in_sequence_weaken; [|exact K4]. lia.
Qed.

(** C13.  A check file of CHECK directives passes exactly when its texts occur in the input one
    after the other without overlap, and the reported matches are the earliest such occurrences. *)
Theorem C13_check_sequence ci allow ps b : ps <> [] -> b <> [] \/ allow = true ->
  ((exists out, passes ci allow None (map (mkLine (L:=lit_lang ci) KPlain) ps) b out) <-> exists is, in_sequence ci b ps 0 is) /\
  (forall out, passes ci allow None (map (mkLine (L:=lit_lang ci) KPlain) ps) b out ->
     exists is, in_sequence ci b ps 0 is /\ out = infos_at ps is /\ forall is', in_sequence ci b ps 0 is' -> Forall2 le is is').
Proof.
  intros A2 A3.
  assert (A1 : readable b (map (mkLine (L:=lit_lang ci) KPlain) ps)).
  { right. intros l I. apply in_map_iff in I as (p & <- & _). intros [D|[D|D]]; discriminate. }
  assert (X : forall out, passes ci allow None (map (mkLine (L:=lit_lang ci) KPlain) ps) b out <->
     exists is, in_sequence ci b ps 0 is /\ out = infos_at ps is /\ forall is', in_sequence ci b ps 0 is' -> Forall2 le is is').
  { intros out. rewrite passes_accepts; auto using plain_flat_ok, plain_anchored.
    - apply accepts_plain. lia.
    - destruct ps; [congruence|discriminate]. }
  split; [|intros out H; now apply X]. split.
  - intros (out & H). apply X in H as (is & H & _). eauto.
  - intros (is & H). destruct (sequence_earliest ci b ps 0 is) as (is0 & S0 & M0); auto; [lia|].
    exists (infos_at ps is0). apply X. eauto.
Qed.

(** * One more directive *)
Lemma passes_snoc ci allow ls b k p out : readable b (ls ++ [mkLine (L:=lit_lang ci) k p]) -> flat_ok (ls ++ [mkLine (L:=lit_lang ci) k p]) -> b <> [] \/ allow = true ->
  anchored (ls ++ [mkLine (L:=lit_lang ci) k p]) -> settled ls -> ls <> [] -> k <> KNot -> k <> KDag ->
  passes ci allow None (ls ++ [mkLine (L:=lit_lang ci) k p]) b out <->
  exists out1 is, passes ci allow None ls b out1 /\ fires (L:=lit_lang ci) b (length b) k p (last_end 0 out1) tt is tt /\ out = out1 ++ is.
Proof.
  intros A1 A2 A3 A4 ST N K1 K2. rewrite passes_accepts; auto; [|destruct ls; discriminate].
  rewrite accepts_app by auto.
  assert (X : forall out1, passes ci allow None ls b out1 <-> accepts (L:=lit_lang ci) b (length b) ls [] false 0 tt out1 tt).
  { intros out1. apply passes_accepts; auto.
    - eapply readable_incl; [|exact A1]. intros l I. apply in_or_app; auto.
    - intros l I. apply A2. apply in_or_app; auto.
    - intros pre l post -> D. apply (A4 pre l (post ++ [mkLine k p])); auto. now rewrite <- app_assoc. }
  split.
  - intros (out1 & [] & is & Y & Z & ->). exists out1, is. rewrite X. splits; auto. now apply accepts_one in Z.
  - intros (out1 & is & Y & Z & ->). exists out1, tt, is. rewrite X in Y. splits; auto. now apply accepts_one.
Qed.
Lemma passes_range ci allow ls b out : readable b ls -> flat_ok ls -> b <> [] \/ allow = true -> anchored ls -> ls <> [] ->
  passes ci allow None ls b out -> in_order 0 out /\ last_end 0 out <= length b.
Proof.
  intros A1 A2 A3 A4 N H. apply passes_accepts in H; auto.
  apply (accepts_between (lit_lang_ok ci) b (length b) (or_introl eq_refl)) in H; auto. lia.
Qed.

(** The conditions shared by the following theorems: a list of directives without labels, to which
    one more is added. *)
Definition extends (b : bytes) (allow ci : bool) (ls : list (line (lit_lang ci))) (l : line (lit_lang ci)) : Prop :=
  readable b (ls ++ [l]) /\ flat_ok (ls ++ [l]) /\ (b <> [] \/ allow = true) /\ anchored (ls ++ [l]) /\ settled ls /\ ls <> [].
Lemma extends_pos b allow ci ls l out : extends b allow ci ls l -> passes ci allow None ls b out -> last_end 0 out <= length b.
Proof.
  intros (A1 & A2 & A3 & A4 & _ & N) H. apply (passes_range ci allow ls b out); auto.
  - eapply readable_incl; [|exact A1]. intros x I. apply in_or_app; auto.
  - intros x I. apply A2. apply in_or_app; auto.
  - intros pre x post -> D. apply (A4 pre x (post ++ [l])); auto. now rewrite <- app_assoc.
Qed.

(** C14.  Adding CHECK-NEXT: the text must occur on the line right after the line where the last
    match ended; the reported match is its first occurrence on that line. *)
Theorem C14_check_next ci allow ls q b out : extends b allow ci ls (mkLine (L:=lit_lang ci) KNext q) ->
  passes ci allow None (ls ++ [mkLine (L:=lit_lang ci) KNext q]) b out <->
  exists out1 nl e j, passes ci allow None ls b out1 /\
    line_end b (last_end 0 out1) nl /\ byte_at b nl LF /\ line_end b (nl + 1) e /\
    first_occurrence ci b q (nl + 1) e j /\ out = out1 ++ [lit_info q j].
Proof.
  intros (A1 & A2 & A3 & A4 & A5 & A6). rewrite passes_snoc; auto; try discriminate. split.
  - intros (out1 & is & P & F & ->). inversion F; subst.
    match goal with F : found _ _ _ _ _ _ _, L : line_end b (_ + 1) _ |- _ => apply found_lit in F as (k & FO & ->); [|destruct L; lia] end.
    eauto 10.
  - intros (out1 & n & e & j & P & L1 & B & L2 & FO & ->). exists out1, [lit_info q j]. splits; auto.
    econstructor; eauto.
    + destruct FO as ((O1 & O2 & _) & _). destruct L2 as (L2 & _). simpl in O2. lia.
    + apply found_lit; [destruct L2; lia|]. eauto.
Qed.
(** C15.  Adding CHECK-SAME: the text must occur after the last match, before the end of the line. *)
Theorem C15_check_same ci allow ls q b out : extends b allow ci ls (mkLine (L:=lit_lang ci) KSame q) ->
  passes ci allow None (ls ++ [mkLine (L:=lit_lang ci) KSame q]) b out <->
  exists out1 e j, passes ci allow None ls b out1 /\
    line_end b (last_end 0 out1) e /\ first_occurrence ci b q (last_end 0 out1) e j /\ out = out1 ++ [lit_info q j].
Proof.
  intros (A1 & A2 & A3 & A4 & A5 & A6). rewrite passes_snoc; auto; try discriminate. split.
  - intros (out1 & is & P & F & ->). inversion F; subst.
    match goal with F : found _ _ _ _ _ _ _, L : line_end b _ _ |- _ => apply found_lit in F as (k & FO & ->); [|destruct L; lia] end.
    eauto 10.
  - intros (out1 & e & j & P & L1 & FO & ->). exists out1, [lit_info q j]. splits; auto.
    econstructor; eauto.
    + apply found_lit; [destruct L1; lia|]. eauto.
    + destruct FO as ((O1 & O2 & _) & _). simpl in *. lia.
Qed.
(** C16.  Adding CHECK-EMPTY: the last match ended at the end of its line and the next line is empty,
    or the last match ended at the end of the input. *)
Theorem C16_check_empty_partial ci allow ls q b out : extends b allow ci ls (mkLine (L:=lit_lang ci) KEmpty q) ->
  passes ci allow None (ls ++ [mkLine (L:=lit_lang ci) KEmpty q]) b out <->
  exists out1 at_, passes ci allow None ls b out1 /\ out = out1 ++ [mkInfo (mkRange at_ at_) 0 0] /\
    ((byte_at b (last_end 0 out1) LF /\ at_ = last_end 0 out1 + 1 /\ line_end b at_ at_) \/
     (last_end 0 out1 = length b /\ at_ = length b)).
Proof.
  intros (A1 & A2 & A3 & A4 & A5 & A6). rewrite passes_snoc; auto; try discriminate. split.
  - intros (out1 & is & P & F & ->). inversion F; subst.
    + exists out1, (last_end 0 out1 + 1). splits; auto.
    + exists out1, (length b). splits; auto; congruence.
  - intros (out1 & at_ & P & -> & [(B & -> & LE)|(E & ->)]); eexists _, _; splits; eauto.
    + constructor; auto.
    + rewrite E. constructor.
Qed.
(** C19.  Adding CHECK-COUNT-n: the text must occur n more times, one occurrence after the other,
    after the last match; the earliest n such occurrences are reported. *)
Lemma fires_count ci b q n : forall pos is, pos <= length b ->
  fires (L:=lit_lang ci) b (length b) (KCount (S n)) q pos tt is tt <->
  exists js, in_sequence ci b (repeat q (S n)) pos js /\ is = infos_at (repeat q (S n)) js /\
    forall js', in_sequence ci b (repeat q (S n)) pos js' -> Forall2 le js js'.
Proof.
  intros pos is P. rewrite <- accepts_plain by auto. revert pos is P. induction n as [|n IH]; intros pos is P.
  - change (map (mkLine (L:=lit_lang ci) KPlain) (repeat q 1)) with [mkLine (L:=lit_lang ci) KPlain q].
    rewrite accepts_one by discriminate. split; intros F; inversion F; subst; constructor; auto.
  - change (map (mkLine (L:=lit_lang ci) KPlain) (repeat q (S (S n)))) with
      ([mkLine (L:=lit_lang ci) KPlain q] ++ map (mkLine (L:=lit_lang ci) KPlain) (repeat q (S n))).
    rewrite accepts_app; [|intros [|x pre] l H; [injection H as <-; split; discriminate|destruct pre; discriminate]|discriminate].
    split.
    + intros F. inversion F as [| | | | | |p' n' pos' en0 i en1 is0 en2 FO FS]; subst. destruct en1. exists [i], tt, is0. splits; auto.
      * apply accepts_one; try discriminate. constructor. auto.
      * apply IH; auto. apply found_lit in FO as (k & ((_ & O & _) & _) & ->); auto.
    + intros (o1 & [] & o2 & X & Y & ->). apply accepts_one in X; try discriminate.
      inversion X as [p' pos' en0 i en1 FO| | | | | |]; subst.
      simpl. econstructor; eauto. simpl in Y. apply IH; auto.
      apply found_lit in FO as (k & ((_ & O & _) & _) & ->); auto.
Qed.
Theorem C19_check_count ci allow ls q n b out : extends b allow ci ls (mkLine (L:=lit_lang ci) (KCount n) q) ->
  passes ci allow None (ls ++ [mkLine (L:=lit_lang ci) (KCount n) q]) b out <->
  exists out1 js, passes ci allow None ls b out1 /\ length js = n /\
    in_sequence ci b (repeat q n) (last_end 0 out1) js /\
    (forall js', in_sequence ci b (repeat q n) (last_end 0 out1) js' -> Forall2 le js js') /\
    out = out1 ++ infos_at (repeat q n) js.
Proof.
  intros EX. pose proof EX as (A1 & A2 & A3 & A4 & A5 & A6).
  assert (LN : forall ps pos js, in_sequence ci b ps pos js -> length js = length ps).
  { clear. induction ps as [|p ps IH]; intros pos [|j js] H; try contradiction; auto. simpl. f_equal. eapply IH. apply H. }
  destruct n as [|n].
  { exfalso. destruct (A2 (mkLine (KCount 0) q)) as [_ X]; [apply in_or_app; simpl; auto|]. apply X. reflexivity. }
  rewrite passes_snoc; auto; try discriminate. split.
  - intros (out1 & is & P & F & ->). apply fires_count in F as (js & SQ & -> & M); [|eapply extends_pos; eauto].
    exists out1, js. splits; auto. rewrite (LN _ _ _ SQ). apply repeat_length.
  - intros (out1 & js & P & _ & SQ & M & ->). exists out1, (infos_at (repeat q (S n)) js). splits; auto.
    apply fires_count; eauto. eapply extends_pos; eauto.
Qed.

(** * C17 *)
Lemma region_start_last ci (pre : list (line (lit_lang ci))) out : region_start pre out = last_end 0 (firstn (width pre) out).
Proof.
  unfold region_start. generalize (firstn (width pre) out). intros l. rewrite <- (rev_involutive l) at 2.
  destruct (rev l) as [|i r]; auto. simpl. now rewrite last_end_app.
Qed.
Lemma anchored_positives ci (ls : list (line (lit_lang ci))) : anchored ls <-> anchored (positives ls).
Proof.
  assert (G : forall acc, (forall pre l post, ls = pre ++ l :: post -> relative (l_kind l) -> exists x, In x (acc ++ pre) /\ places (l_kind x)) <->
    (forall pre l post, positives ls = pre ++ l :: post -> relative (l_kind l) -> exists x, In x (acc ++ pre) /\ places (l_kind x))).
  { induction ls as [|y ls IH]; intros acc.
    - split; intros H [|z pre] l post E; discriminate.
    - assert (STEP : (forall pre l post, y :: ls = pre ++ l :: post -> relative (l_kind l) -> exists x, In x (acc ++ pre) /\ places (l_kind x)) <->
        (relative (l_kind y) -> exists x, In x acc /\ places (l_kind x)) /\
        (forall pre l post, ls = pre ++ l :: post -> relative (l_kind l) -> exists x, In x ((acc ++ [y]) ++ pre) /\ places (l_kind x))).
      { split.
        - intros H. split.
          + intros D. destruct (H [] y ls eq_refl D) as (x & X & I). rewrite app_nil_r in X. eauto.
          + intros pre l post -> D. rewrite <- app_assoc. apply (H (y :: pre) l post); auto.
        - intros [H1 H2] [|z pre] l post E D.
          + injection E as <- E. rewrite app_nil_r. auto.
          + injection E as <- E. specialize (H2 pre l post E D). now rewrite <- app_assoc in H2. }
      rewrite STEP. clear STEP. unfold positives. cbn [filter]. fold (positives ls).
      destruct (is_not y) eqn:N; cbn [negb].
      + apply is_not_kind in N. rewrite (IH (acc ++ [y])). rewrite N.
        assert (Q : forall pre x, In x ((acc ++ [y]) ++ pre) /\ places (l_kind x) <-> In x (acc ++ pre) /\ places (l_kind x)).
        { intros pre x. rewrite !in_app_iff. simpl. split; [|tauto]. intros [[[X|[X|[]]]|X] I]; auto. subst y. rewrite N in I. destruct I as [I|[I|[? I]]]; discriminate. }
        split.
        * intros [_ H] pre l post E D. destruct (H pre l post E D) as (x & X). exists x. now apply Q.
        * intros H. split; [intros [X|[X|X]]; discriminate|]. intros pre l post E D. destruct (H pre l post E D) as (x & X). exists x. now apply Q.
      + rewrite (IH (acc ++ [y])). split.
        * intros [H1 H2] [|z pre] l post E D.
          -- injection E as <- E. rewrite app_nil_r. auto.
          -- injection E as <- E. specialize (H2 pre l post E D). now rewrite <- app_assoc in H2.
        * intros H. split.
          -- intros D. destruct (H [] y (positives ls) eq_refl D) as (x & X & I). rewrite app_nil_r in X. eauto.
          -- intros pre l post E D. rewrite <- app_assoc. apply (H (y :: pre) l post); auto. now rewrite E. }
  specialize (G []). simpl in G. exact G.
Qed.

(** CHECK-NOT, in files without CHECK-DAG and labels: the file passes with the matches [out] exactly
    when it does without its CHECK-NOT directives, and none of those occurs between the end of the
    last match before it (or the start of the input) and the start of the first match after it (or
    the end of the input). *)
Theorem C17_check_not_partial ci allow (ls : list (line (lit_lang ci))) b out : readable b ls -> flat_ok ls ->
  (forall l, In l ls -> l_kind l <> KDag) -> b <> [] \/ allow = true -> anchored ls -> positives ls <> [] ->
  passes ci allow None ls b out <->
  passes ci allow None (positives ls) b out /\
  forall pre p post i, ls = pre ++ mkLine (L:=lit_lang ci) KNot p :: post ->
    ~ occurrence ci b p (region_start pre out) (region_end pre out (length b)) i.
Proof.
  intros A1 A2 A3 A4 A5 A6.
  assert (N1 : ls <> []) by (intros ->; apply A6; reflexivity).
  assert (F1 : flat_ok (positives ls)) by (intros l I; apply A2; apply filter_In in I; tauto).
  assert (AN : anchored (positives ls)) by (apply (proj1 (anchored_positives ci ls)); exact A5).
  assert (R1 : readable b (positives ls)) by (eapply readable_incl; [|exact A1]; intros l I; apply filter_In in I; tauto).
  rewrite (passes_accepts ci allow ls b out), (passes_accepts ci allow (positives ls) b out); auto.
  rewrite (accepts_regions ci b (length b) (or_introl eq_refl) ls A3 [] 0 out) by lia.
    rewrite regions_all. split.
    + intros (H & _ & R). split; auto. intros pre p post i E. rewrite region_start_last. apply (R pre p post E). simpl; auto.
    + intros (H & R). split; auto. split; [intros p i []|]. intros pre p post E p' i [<-|[]].
      rewrite <- region_start_last. exact (R pre p post i E).
Qed.

(** * C18 *)
(** A group of CHECK-DAG directives that is satisfied: every directive has a match with its text,
    the matches are disjoint and lie after the previous match, inside the block. *)
Theorem C18_dag_matches ci ds b s e en ms en' stop : s <= e <= length b -> ds <> [] ->
  dm (l:=lit_lang ci) ds b (mkRange s e) en = Val (ms, en', stop) -> ms_ok ms = true ->
  (forall p, In p ds -> exists i, In i (infos ms) /\ rend (i_span i) = rstart (i_span i) + length (lit_text p) /\
     occurrence false b p s e (rstart (i_span i))) /\
  in_order s (infos ms) /\ last_end s (infos ms) <= e /\ stop = Some (last_end s (infos ms)) /\
  length (infos ms) = length (nodup (list_eq_dec N.eq_dec) (map lit_text ds)).
Proof.
  intros H NE D OK. cbn [dm lit_lang pat env] in D. destruct (lit_dag_run ds b s e H NE) as (ms' & pos & R & K).
  rewrite R in D. cbn [bind] in D. injection D as -> _ ->. destruct (K OK) as ((start & SE & G & LE) & ->).
  assert (ND : NoDup (map lit_text (dedup [] ds))) by apply (dedup_nodup ds []).
  splits; auto.
  - intros p P. destruct (dedup_covers ds [] p P) as [[]|(q & Q & T)]. apply In_nth_error in Q as (k & Q).
    assert (KI : In k (map i_id (infos ms))).
    { destruct (in_dec Nat.eq_dec k (map i_id (infos ms))) as [I|I]; auto. exfalso.
      pose proof (got_ids _ _ _ _ _ G) as GI. pose proof (got_all_info _ _ _ _ _ G) as GA. destruct G as (_ & _ & _ & NI).
      assert (X : length (k :: map i_id (infos ms)) <= length (seq 0 (length (dedup [] ds)))).
      { apply NoDup_incl_length; [constructor; auto|]. intros j [<-|J]; apply in_seq; [|specialize (GI j J); lia].
        assert (k < length (dedup [] ds)) by (apply nth_error_Some; congruence). lia. }
      simpl in X. rewrite map_length, seq_length, GA, LE in X. lia. }
    apply in_map_iff in KI as (i & KI & I). exists i. split; auto.
    assert (X : exists m, In m ms /\ m_info m = Some i).
    { clear - I. induction ms as [|m r IH]; [contradiction|]. simpl in I. destruct (m_info m) eqn:M.
      - destruct I as [->|I]; [exists m; simpl; auto|]. destruct (IH I) as (x & ? & ?). exists x; simpl; auto.
      - destruct (IH I) as (x & ? & ?). exists x; simpl; auto. }
    destruct X as (m & M & MI). destruct G as (A & _). destruct (A m M) as (i' & q' & _ & MI' & NQ & SP & TA & S1 & S2).
    rewrite MI in MI'. injection MI' as <-. rewrite KI, Q in NQ. injection NQ as <-. rewrite T in *.
    assert (R1 : rend (i_span i) = rstart (i_span i) + length (lit_text p)) by (rewrite SP; reflexivity).
    splits; auto. split; auto. split; auto. lia.
  - apply G.
  - destruct G as (_ & _ & X & _). lia.
  - rewrite (got_all_info _ _ _ _ _ G), LE, <- (map_length lit_text).
    apply Nat.le_antisymm; apply NoDup_incl_length; auto using NoDup_nodup.
    + intros t I. apply nodup_In. now apply (dedup_texts ds).
    + intros t I. apply nodup_In in I. now apply (dedup_texts ds).
Qed.
(** The order in which the directives of a group are written does not matter, nor does repeating one. *)
Theorem C18_dag_order ci ds ds' b s e en : s <= e <= length b -> ds <> [] ->
  (forall t, In t (map lit_text ds) <-> In t (map lit_text ds')) ->
  exists ms stop ms' stop', dm (l:=lit_lang ci) ds b (mkRange s e) en = Val (ms, en, stop) /\
    dm (l:=lit_lang ci) ds' b (mkRange s e) en = Val (ms', en, stop') /\
    ms_ok ms = ms_ok ms' /\ (ms_ok ms = true -> map i_span (infos ms) = map i_span (infos ms')).
Proof.
  intros H NE ST. destruct (lit_dag_same ds ds' b s e H NE ST) as (ms & p & ms' & p' & R & R' & M & SP).
  exists ms, p, ms', p'. cbn [dm lit_lang pat env]. rewrite R, R'. splits; auto.
Qed.

(** * C23 *)
(** --implicit-check-not, in files without CHECK-DAG, CHECK-COUNT and labels: the file passes
    exactly when it passes without it and the text does not occur before the first match, between
    two matches, or after the last one. *)
Theorem C23_implicit_check_not_partial ci allow q (ls : list (line (lit_lang ci))) b out : readable b ls -> flat_ok ls ->
  (forall l, In l ls -> l_kind l <> KDag /\ forall n, l_kind l <> KCount n) -> b <> [] \/ allow = true -> anchored ls -> ls <> [] ->
  passes ci allow (Some q) ls b out <->
  passes ci allow None ls b out /\
  forall k i, k <= length out ->
    ~ occurrence ci b q
        match rev (firstn k out) with [] => 0 | m :: _ => rend (i_span m) end
        match skipn k out with [] => length b | m :: _ => rstart (i_span m) end i.
Proof.
  intros A1 A2 A3 A4 A5 A6.
  assert (ND : forall l, In l ls -> l_kind l <> KDag) by (intros; apply A3; auto).
  assert (WD : forall l, In l ls -> width_of l = if is_not l then 0 else 1).
  { intros l I. destruct (A3 l I) as [_ C]. destruct (A2 l I) as [LB _]. unfold width_of, is_not. destruct (l_kind l); auto; [exfalso; eapply C; eauto|congruence]. }
  rewrite (passes_accepts ci allow ls b out); auto.
  assert (P : passes ci allow (Some q) ls b out <-> accepts (L:=lit_lang ci) b (length b) (with_implicit (L:=lit_lang ci) (Some q) ls) [] false 0 tt out tt).
  { pose proof (C22_pass_iff_holds_partial (lit_lang_ok ci) allow (Some q) (mkFile ls []) b tt ltac:(destruct A1; auto) (flat_file_ok ls A2)) as H.
    assert (FL : file_lines (mkFile (L:=lit_lang ci) ls []) = ls) by (unfold file_lines; simpl; apply app_nil_r).
    rewrite FL in H. unfold passes.
    assert (H' : forall out, file_holds (L:=lit_lang ci) b (Some q) (mkFile ls []) tt out <->
      exists t, filecheck (L:=lit_lang ci) allow (Some q) ls b tt = Val t /\ t_errors t = [] /\ t_matches t = out).
    { apply H; auto; [intros p []|right; simpl; discriminate]. }
    rewrite <- H', flat_holds. split; [intros ([] & X); exact X|intros X; exists tt; exact X]. }
  rewrite P. unfold with_implicit. change (implicit_line (L:=lit_lang ci) (Some q)) with [mkLine (L:=lit_lang ci) KNot q].
  change (flat_map _ ls) with (after_each (L:=lit_lang ci) q ls).
  rewrite (accepts_regions ci b (length b) (or_introl eq_refl) ([mkLine (L:=lit_lang ci) KNot q] ++ after_each (L:=lit_lang ci) q ls)); [|clear - ND|lia].
  - change (positives ([mkLine (L:=lit_lang ci) KNot q] ++ after_each (L:=lit_lang ci) q ls)) with (positives (after_each (L:=lit_lang ci) q ls)).
    rewrite positives_after_each. cbn [app regions is_not l_kind l_pat].
    rewrite (accepts_regions ci b (length b) (or_introl eq_refl) ls ND [] 0 out) by lia.
    assert (LE : forall l : list minfo, match rev l with [] => 0 | m :: _ => rend (i_span m) end = last_end 0 l).
    { intros l. rewrite <- (rev_involutive l) at 2. destruct (rev l) as [|i r]; auto. simpl. now rewrite last_end_app. }
    assert (G : gaps ci b (length b) q 0 out <-> forall k i, k <= length out ->
      ~ occurrence ci b q match rev (firstn k out) with [] => 0 | m :: _ => rend (i_span m) end
        match skipn k out with [] => length b | m :: _ => rstart (i_span m) end i).
    { rewrite gaps_all. split; intros H k i K; specialize (H k i K); rewrite LE in *; exact H. }
    rewrite <- G. split.
    + intros (H & R). assert (LN : length out = width ls).
      { rewrite (accepts_width b (length b) _ _ _ _ _ _ _ H) by (intros l I; apply ND; apply filter_In in I; tauto).
        clear - WD. unfold width, positives. induction ls as [|l ls IH]; auto. cbn [filter map].
        pose proof (WD l (or_introl eq_refl)). destruct (is_not l); cbn [negb map list_sum fold_right]; [rewrite H|].
        - apply IH. intros; apply WD; simpl; auto.
        - cbn [map list_sum fold_right]. f_equal. apply IH. intros; apply WD; simpl; auto. }
      apply regions_implicit in R as [R1 R2]; simpl; auto. splits; auto. apply regions_nots in R1. tauto.
    + intros ((H & R) & GP). split; auto. assert (LN : length out = width ls).
      { rewrite (accepts_width b (length b) _ _ _ _ _ _ _ H) by (intros l I; apply ND; apply filter_In in I; tauto).
        clear - WD. unfold width, positives. induction ls as [|l ls IH]; auto. cbn [filter map].
        pose proof (WD l (or_introl eq_refl)). destruct (is_not l); cbn [negb map list_sum fold_right]; [rewrite H|].
        - apply IH. intros; apply WD; simpl; auto.
        - cbn [map list_sum fold_right]. f_equal. apply IH. intros; apply WD; simpl; auto. }
      apply regions_implicit; simpl; auto. split; auto. apply regions_nots. split; auto. destruct out; apply GP.
  - intros l [<-|I]; [discriminate|]. unfold after_each in I. apply in_flat_map in I as (x & X & [<-|I]); [auto|].
    destruct (l_kind x); try contradiction; destruct I as [<-|[]]; discriminate.
Qed.

Print Assumptions C13_check_sequence.
Print Assumptions C14_check_next.
Print Assumptions C15_check_same.
Print Assumptions C16_check_empty_partial.
Print Assumptions C17_check_not_partial.
Print Assumptions C18_dag_matches.
Print Assumptions C18_dag_order.
Print Assumptions C19_check_count.
Print Assumptions C23_implicit_check_not_partial.
