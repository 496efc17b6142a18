(** C31, C32, C62: what a test script means. *)
From Coq Require Import String.
From Verif Require Import Base Cursor_Model Num_Spec Script_Model Script_Spec Script_Proofs.
From Verif Require BoolExpr_Model.
Notation length := List.length.
Open Scope string_scope. Open Scope list_scope.
Ltac splits := repeat match goal with |- _ /\ _ => split end.

(** *** Texts whose last line lacks its line feed *)
Lemma split_inclusive_app l r : ~ In 10%N l -> split_inclusive (l ++ 10%N :: r) = (l, true) :: split_inclusive r.
Proof.
  induction l as [|c l IH]; intros NI; cbn; auto. destruct (N.eqb_spec c 10) as [->|N]; [exfalso; apply NI; now left|]. rewrite IH; auto. intros I. apply NI. now right.
Qed.
Lemma split_inclusive_last l : l <> [] -> ~ In 10%N l -> split_inclusive l = [(l, false)].
Proof.
  induction l as [|c l IH]; intros NE NI; [easy|]. cbn. destruct (N.eqb_spec c 10) as [->|N]; [exfalso; apply NI; now left|].
  destruct l as [|d l]; auto. rewrite IH; auto; [easy|]. intros I. apply NI. now right.
Qed.
Lemma unterminated_split text ls : cut text ls -> ~ terminated text -> exists a l, ls = a ++ [l] /\ split_inclusive text = map (fun x => (x, true)) a ++ [(l, false)].
Proof.
  induction 1 as [|l r ls NI C IH|l NE NI]; intros T.
  - exfalso. apply T. now left.
  - destruct IH as (a & x & -> & E).
    + intros [->|[t ->]]; apply T; right; [now exists l|]. exists (l ++ 10%N :: t). now rewrite <- app_assoc.
    + exists (l :: a), x. split; auto. rewrite split_inclusive_app, E; auto.
  - exists [], l. split; auto. now apply split_inclusive_last.
Qed.
(** the same lines, but the last one counted as the one before it *)
Definition miscounted (text : str) (nls : list (nat * str)) : Prop :=
  exists ls bs, cut text ls /\ Forall2 bare ls bs /\ nls = combine (seq 1 (length bs - 1) ++ [length bs - 1]) bs.
Lemma number_lines_app n a b : Forall (fun x => snd x = true) a -> number_lines n (a ++ b) = number_lines n a ++ number_lines (n + length a) b.
Proof.
  intros F. revert n. induction F as [|[s x] a H F IH]; intros n; cbn [app number_lines length]; [now rewrite Nat.add_0_r|].
  cbn in H. subst x. rewrite IH. cbn [app]. now rewrite Nat.add_succ_r.
Qed.
Lemma combine_app {A B} (a a' : list A) (b b' : list B) : length a = length b -> combine (a ++ a') (b ++ b') = combine a b ++ combine a' b'.
Proof. revert b. induction a as [|x a IH]; intros [|y b] L; try discriminate; auto. cbn. f_equal. apply IH. now injection L. Qed.
Lemma miscounted_lines text nls : ~ terminated text -> (miscounted text nls <-> nls = lines_of text).
Proof.
  intros T. destruct (unterminated_split text _ (cut_split text) T) as (a & l & E & S).
  assert (L : lines_of text = combine (seq 1 (length (a ++ [l]) - 1) ++ [length (a ++ [l]) - 1]) (map strip_cr (a ++ [l]))).
  { unfold lines_of. rewrite S, number_lines_app by (apply Forall_map, Forall_forall; auto). rewrite number_lines_true by (apply Forall_map, Forall_forall; auto).
    rewrite !map_length, map_map, app_length, map_app. cbn [length Nat.add fst map number_lines]. rewrite combine_app by (rewrite seq_length, map_length; lia).
    rewrite Nat.add_sub. reflexivity. }
  rewrite L. split.
  - intros (ls & bs & C & F & ->). rewrite (cut_unique _ _ C _ (cut_split text)), E in F. apply Forall2_bare in F as ->. now rewrite !map_length.
  - intros ->. exists (a ++ [l]), (map strip_cr (a ++ [l])). splits; [rewrite <- E; apply cut_split|now apply Forall2_bare|]. now rewrite !map_length.
Qed.
Section Props.
Context (wide : N -> bool) (valid : str -> bool).
Hypothesis wide_ok : forall c, wide c = true -> (128 <= c)%N.

(** C62: a text that ends in a line feed is accepted as a script iff its numbered lines mean one, and
    then it is that script. *)
Theorem C62_script text sc : terminated text ->
  (parse wide valid text = Val (inl sc) <-> exists nls is, numbered text nls /\ means wide valid nls is /\ makes is sc).
Proof. now apply parse_spec. Qed.
(** C62, of any other text: the same, except that the last line is counted as the one before it. *)
Theorem C62_unterminated text sc : ~ terminated text ->
  (parse wide valid text = Val (inl sc) <-> exists nls is, miscounted text nls /\ means wide valid nls is /\ makes is sc).
Proof.
  intros T. rewrite parse_lines_spec by auto. split.
  - intros (is & M & K). exists (lines_of text), is. splits; auto. now apply miscounted_lines.
  - intros (nls & is & L & M & K). apply miscounted_lines in L as ->; eauto.
Qed.

(** *** Line numbers *)
Definition line_of (c : command) : nat := match c with Run n _ => n | Subst n _ _ _ => n end.
(** the numbers of the commands, in order, are among the numbers of the lines, in order *)
Inductive subseq {A} : list A -> list A -> Prop :=
| sub_nil l : subseq [] l
| sub_take x a b : subseq a b -> subseq (x :: a) (x :: b)
| sub_skip x a b : subseq a b -> subseq a (x :: b).
Lemma subseq_app {A} (a b pre : list A) : subseq a b -> subseq a (pre ++ b).
Proof. induction pre; cbn; auto. intros H. constructor. auto. Qed.
Lemma more_rest k st se sep ls rest u : more wide k st se sep ls rest u -> exists pre, ls = pre ++ rest.
Proof.
  induction 1 as [|n l c s x t ls rest u S C ST X M (pre & ->)|n l c x t ls S EN ST X]; [now exists []|now exists ((n, l) :: pre)|now exists [(n, l)]].
Qed.
Lemma whole_rest k st se sep n c ls rest t : whole wide (more wide k st se sep) n c ls rest t -> exists pre, ls = pre ++ rest.
Proof. destruct 1 as [|s x t rest u C T X M]; [now exists []|]. eapply more_rest; eauto. Qed.
Lemma means_lines nls is : means wide valid nls is ->
  subseq (map line_of (flat_map command_of is)) (map fst nls) /\
  (forall c, In c (flat_map command_of is) -> exists l k content, In (line_of c, l) nls /\ says l k content /\
     match c with Run _ _ => k = DRun | Subst _ _ _ b => k = if b then DRedefine else DDefine end).
Proof.
  induction 1 as [|n l ls is S M [IH1 IH2]|n l c ls S B|n l c ls is S B M [IH1 IH2]|n l c ls rest t is S W M [IH1 IH2]|n l k c ls rest a b key value is K S W NI T KN T' M [IH1 IH2]|n l k c ls rest t is K S W NI M [IH1 IH2]|n l k c ls es is K S X M [IH1 IH2]|n l c ls v is S X M [IH1 IH2]]; cbn [flat_map command_of app map fst].
  all: try (split; [constructor|intros ? []]; fail).
  - split; [now constructor|]. intros x I. destruct (IH2 x I) as (y & z & w & H). exists y, z, w. split; [right; apply H|apply H].
  - split; [now constructor|]. intros x I. destruct (IH2 x I) as (y & z & w & H). exists y, z, w. split; [right; apply H|apply H].
  - destruct (whole_rest _ _ _ _ _ _ _ _ _ W) as (pre & ->). split.
    + constructor. rewrite map_app. now apply subseq_app.
    + intros x [<-|I]; [exists l, DRun, c; splits; auto; now left|]. destruct (IH2 x I) as (y & z & w & H & H'). exists y, z, w. split; auto. right. apply in_app_iff. auto.
  - destruct (whole_rest _ _ _ _ _ _ _ _ _ W) as (pre & ->). split.
    + constructor. rewrite map_app. now apply subseq_app.
    + intros x [<-|I]; [exists l, k, c; splits; auto; [now left|destruct K as [->| ->]; reflexivity]|]. destruct (IH2 x I) as (y & z & w & H & H'). exists y, z, w. split; auto. right. apply in_app_iff. auto.
  - destruct (whole_rest _ _ _ _ _ _ _ _ _ W) as (pre & ->). split.
    + constructor. rewrite map_app. now apply subseq_app.
    + intros x I. destruct (IH2 x I) as (y & z & w & H & H'). exists y, z, w. split; auto. right. apply in_app_iff. auto.
  - split; [now constructor|]. intros x I. destruct (IH2 x I) as (y & z & w & H). exists y, z, w. split; [right; apply H|apply H].
  - split; [now constructor|]. intros x I. destruct (IH2 x I) as (y & z & w & H). exists y, z, w. split; [right; apply H|apply H].
Qed.
(** C31, of a text that ends in a line feed: every command carries the number of the line that starts
    it, and the commands are in the order of their lines. *)
Theorem C31_lines_partial text sc : terminated text -> parse wide valid text = Val (inl sc) ->
  exists nls, numbered text nls /\
    (forall n t, In (Run n t) (s_commands sc) -> exists l content, In (n, l) nls /\ says l DRun content) /\
    (forall n key value b, In (Subst n key value b) (s_commands sc) -> exists l content, In (n, l) nls /\ says l (if b then DRedefine else DDefine) content) /\
    subseq (map line_of (s_commands sc)) (seq 1 (length nls)).
Proof.
  intros T H. apply C62_script in H as (nls & is & NL & M & (-> & _)); auto. exists nls. destruct (means_lines _ _ M) as [A B]. splits; auto.
  - intros n t I. destruct (B _ I) as (l & k & c & I' & S & ->). eauto.
  - intros n key value b I. destruct (B _ I) as (l & k & c & I' & S & ->). eauto.
  - destruct NL as (ls & bs & _ & _ & ->). rewrite combine_length, seq_length, Nat.min_id. assert (X : forall (a : list nat) (b : list str), length a = length b -> map fst (combine a b) = a).
    { induction a as [|x a IH]; intros [|y b] L; try discriminate; auto. cbn. f_equal. apply IH. now injection L. }
    rewrite X in A; auto. now rewrite seq_length.
Qed.

(** *** Internal errors *)
Definition overflowing (n : nat) (s : str) : Prop :=
  exists pre a b ds d post, s = pre ++ of_string "%(line" ++ a ++ of_string "+" ++ b ++ ds ++ of_string ")" ++ post /\
    spaces a /\ spaces b /\ digits_are ds d /\ (2 ^ 64 <= Z.of_nat n + d)%Z.
Lemma overflowing_app n s a b : overflowing n s -> overflowing n (a ++ s ++ b).
Proof.
  intros (pre & x & y & ds & d & post & -> & H). exists (a ++ pre), x, y, ds, d, (post ++ b). split; [now rewrite <- !app_assoc|exact H].
Qed.
Lemma push_lines_panic n f : (N.of_nat n < 2 ^ 64)%N -> forall s, push_lines wide f (N.of_nat n) s <> Err /\ (push_lines wide f (N.of_nat n) s = Panic -> overflowing n s).
Proof.
  intros LN. assert (U : (usize_max = 2 ^ 64 - 1)%N) by reflexivity.
  induction f as [|f IH]; intros s; [split; discriminate|]. cbn [push_lines]. pose proof (line_ref_spec wide wide_ok s) as Y. destruct (line_ref wide s) as [[[[neg ds]|] rest]|].
  - destruct Y as (a & b & -> & A & B & NE & D).
    assert (R : overflowing n rest -> overflowing n (of_string "%(line" ++ a ++ [sign neg] ++ b ++ ds ++ of_string ")" ++ rest)).
    { intros O. apply (overflowing_app n rest (of_string "%(line" ++ a ++ [sign neg] ++ b ++ ds ++ of_string ")") []) in O. rewrite <- !app_assoc, app_nil_r in O. exact O. }
    destruct (IH rest) as [IH1 IH2].
    destruct (match parse_usize ds with Some d => (d, []) | None => (0%N, [BadLineNumber]) end) as [d e] eqn:P.
    destruct neg; cbn [bind].
    + destruct (push_lines wide f (N.of_nat n) rest) as [[u es]| |]; cbn [bind]; split; try congruence; auto; discriminate.
    + destruct (N.leb_spec (N.of_nat n + d) usize_max) as [L|L]; cbn [bind].
      * destruct (push_lines wide f (N.of_nat n) rest) as [[u es]| |]; cbn [bind]; split; try congruence; auto; discriminate.
      * split; [discriminate|]. intros _. destruct (parse_usize ds) as [d'|] eqn:Q; injection P as <- <-.
        -- apply parse_usize_digits in Q as [Q Q']; eauto using digit_no_plus. exists [], a, b, ds, (Z.of_N d'), rest. splits; auto. lia.
        -- exfalso. lia.
  - subst s. destruct (IH rest) as [IH1 IH2]. destruct (push_lines wide f (N.of_nat n) rest) as [[u es]| |]; cbn [bind]; split; try congruence; try discriminate.
    intros _. apply (overflowing_app n rest (of_string "%(line)") []) in IH2; auto. now rewrite app_nil_r in IH2.
  - destruct s as [|c s]; [split; discriminate|]. destruct (IH s) as [IH1 IH2]. destruct (push_lines wide f (N.of_nat n) s) as [[u es]| |]; cbn [bind]; split; try congruence; try discriminate.
    intros _. apply (overflowing_app n s [c] []) in IH2; auto. now rewrite app_nil_r in IH2.
Qed.
Definition part (s l : str) : Prop := exists a b, l = a ++ s ++ b.
Lemma part_trans x y z : part x y -> part y z -> part x z.
Proof. intros (a & b & ->) (c & d & ->). exists (c ++ a), (b ++ d). now rewrite <- !app_assoc. Qed.
Lemma part_refl x : part x x. Proof. exists [], []. now rewrite app_nil_r. Qed.
Lemma part_trim_start s : part (trim_start s) s.
Proof. destruct (trim_start_ok s) as (a & E & _). exists a, []. now rewrite app_nil_r. Qed.
Lemma part_trim_end s : part (trim_end s) s.
Proof. destruct (proj2 (rtrimmed_spec s _) eq_refl) as (b & E & _). now exists [], b. Qed.
Lemma part_trim s : part (trim s) s.
Proof. unfold trim. eapply part_trans; [apply part_trim_end|apply part_trim_start]. Qed.
Lemma part_strip c s t : strip_last c s = Some t -> part t s.
Proof. intros H. apply strip_last_spec in H as ->. now exists [], [c]. Qed.
Lemma part_raw l k c : raw_directive l = Some (k, c) -> part c l.
Proof. intros H. apply says_raw in H as (p & -> & _). exists (p ++ spelling k), []. now rewrite app_nil_r, <- app_assoc. Qed.
Lemma push_panic n s l : (N.of_nat n < 2 ^ 64)%N -> part s l -> push_str wide n s <> Err /\ (push_str wide n s = Panic -> overflowing n l).
Proof.
  intros L (a & b & ->). destruct (push_lines_panic n (S (length s)) L s) as [A B]. split; auto. intros H. apply overflowing_app. auto.
Qed.
Definition small (ls : list (nat * str)) : Prop := Forall (fun x => (N.of_nat (fst x) < 2 ^ 64)%N) ls.
Definition breaks (ls : list (nat * str)) : Prop := exists n l, In (n, l) ls /\ overflowing n l.
Lemma breaks_cons x ls : breaks ls -> breaks (x :: ls).
Proof. intros (n & l & I & H). exists n, l. split; auto. now right. Qed.
Lemma continuation_panic kind collapse ls : small ls -> continuation wide kind collapse ls <> Err /\ (continuation wide kind collapse ls = Panic -> breaks ls) /\
  forall t e rest, continuation wide kind collapse ls = Val (t, e, rest) -> exists pre, ls = pre ++ rest.
Proof.
  induction 1 as [|[n l] ls H S (IH1 & IH2 & IH3)]; cbn [continuation fst] in *.
  { splits; try discriminate. intros t e rest [= <- <- <-]. now exists []. }
  destruct (match raw_directive l with Some (k, content) => _ | None => _ end) as [e line] eqn:R.
  assert (PL : part line l). { destruct (raw_directive l) as [[k c]|] eqn:E; injection R as _ <-; [now apply part_raw in E|apply part_refl]. }
  destruct (strip_last 92 line) as [st|] eqn:E.
  - apply part_strip in E. assert (P : part (if collapse then trim st else st) l). { eapply part_trans; [|exact PL]. eapply part_trans; [|exact E]. destruct collapse; [apply part_trim|apply part_refl]. }
    destruct (push_panic n _ l H P) as [P1 P2]. destruct (push_str wide n _) as [[t e1]| |]; cbn [bind]; [|congruence|splits; try discriminate; intros _; exists n, l; split; [now left|auto]].
    destruct (continuation wide kind collapse ls) as [[[u e2] rest]| |]; cbn [bind]; [|congruence|splits; try discriminate; intros _; apply breaks_cons; auto].
    splits; try discriminate. intros t' e' rest' [= <- <- <-]. destruct (IH3 _ _ _ eq_refl) as (pre & ->). now exists ((n, l) :: pre).
  - assert (P : part (if collapse then trim_start (trim_end line) else trim_end line) l). { eapply part_trans; [|exact PL]. destruct collapse; [|apply part_trim_end]. eapply part_trans; [apply part_trim_start|apply part_trim_end]. }
    destruct (push_panic n _ l H P) as [P1 P2]. destruct (push_str wide n _) as [[t e1]| |]; cbn [bind]; [|congruence|splits; try discriminate; intros _; exists n, l; split; [now left|auto]].
    splits; try discriminate. intros t' e' rest' [= <- <- <-]. now exists [(n, l)].
Qed.
Lemma parse_line_panic kind collapse n l c ls : (N.of_nat n < 2 ^ 64)%N -> small ls -> part c l ->
  parse_line wide kind collapse n c ls <> Err /\ (parse_line wide kind collapse n c ls = Panic -> breaks ((n, l) :: ls)) /\
  forall t e rest, parse_line wide kind collapse n c ls = Val (t, e, rest) -> exists pre, ls = pre ++ rest.
Proof.
  intros H S PL. unfold parse_line. destruct (strip_last 92 c) as [st|] eqn:E.
  - apply part_strip in E. assert (P : part (trim_start st) l). { eapply part_trans; [|exact PL]. eapply part_trans; [|exact E]. apply part_trim_start. }
    destruct (push_panic n _ l H P) as [P1 P2]. destruct (push_str wide n _) as [[t e1]| |]; cbn [bind]; [|congruence|splits; try discriminate; intros _; exists n, l; split; [now left|auto]].
    destruct (continuation_panic kind collapse ls S) as (C1 & C2 & C3). destruct (continuation wide kind collapse ls) as [[[u e2] rest]| |]; cbn [bind]; [|congruence|splits; try discriminate; intros _; apply breaks_cons; auto].
    splits; try discriminate. intros t' e' rest' [= <- <- <-]. eauto.
  - assert (P : part (trim_start (trim_end c)) l). { eapply part_trans; [|exact PL]. eapply part_trans; [apply part_trim_start|apply part_trim_end]. }
    destruct (push_panic n _ l H P) as [P1 P2]. destruct (push_str wide n _) as [[t e1]| |]; cbn [bind]; [|congruence|splits; try discriminate; intros _; exists n, l; split; [now left|auto]].
    splits; try discriminate. intros t' e' rest' [= <- <- <-]. now exists [].
Qed.
Lemma breaks_app pre ls : breaks ls -> breaks (pre ++ ls).
Proof. induction pre; cbn; auto. intros H. apply breaks_cons. auto. Qed.
Lemma parse_lines_panic f : forall ls s es, small ls -> parse_lines wide valid f ls s es <> Err /\ (parse_lines wide valid f ls s es = Panic -> breaks ls).
Proof.
  induction f as [|f IH]; intros ls s es SM; cbn [parse_lines]; [split; discriminate|]. destruct ls as [|[n l] ls]; [split; discriminate|].
  inversion SM as [|? ? H S]; subst. cbn in H.
  assert (K : forall s es, parse_lines wide valid f ls s es <> Err /\ (parse_lines wide valid f ls s es = Panic -> breaks ((n, l) :: ls))).
  { intros s0 es0. destruct (IH ls s0 es0 S) as [A B]. split; auto. intros X. apply breaks_cons. auto. }
  destruct (raw_directive l) as [[k c]|] eqn:R; [|auto]. apply part_raw in R.
  assert (G : forall kind collapse (cont : str -> list serror -> list (nat * str) -> res (script * list serror)),
    (forall t e rest, small rest -> cont t e rest <> Err /\ (cont t e rest = Panic -> breaks rest)) ->
    (do (t, e, rest) <- parse_line wide kind collapse n c ls; cont t e rest) <> Err /\ ((do (t, e, rest) <- parse_line wide kind collapse n c ls; cont t e rest) = Panic -> breaks ((n, l) :: ls))).
  { intros kind collapse cont C. destruct (parse_line_panic kind collapse n l c ls H S R) as (P1 & P2 & P3). destruct (parse_line wide kind collapse n c ls) as [[[t e] rest]| |]; cbn [bind]; [|congruence|split; [discriminate|auto]].
    destruct (P3 _ _ _ eq_refl) as (pre & ->). apply Forall_app in S as [_ S]. destruct (C t e rest S) as [C1 C2]. split; auto. intros X. apply breaks_cons, breaks_app. auto. }
  destruct k.
  - apply G. intros t e rest S'. now apply IH.
  - apply G. intros t e rest S'. destruct (parse_substitution n DDefine t s). now apply IH.
  - apply G. intros t e rest S'. destruct (parse_substitution n DRedefine t s). now apply IH.
  - destruct (parse_bools valid DUnsupported (split_at 44 c) s). apply K.
  - destruct (parse_bools valid DRequires (split_at 44 c) s). apply K.
  - destruct (parse_bools valid DXfail (split_at 44 c) s). apply K.
  - destruct (parse_int c s). apply K.
  - destruct (trim c); [split; discriminate|apply K].
Qed.
Lemma lines_small text : (N.of_nat (length text) < 2 ^ 64)%N -> small (lines_of text).
Proof.
  intros L. unfold lines_of. assert (G : forall l n, (N.of_nat (n + length l) < 2 ^ 64)%N -> small (number_lines n l)).
  { induction l as [|[x b] l IH]; intros n H; cbn [number_lines length] in *; constructor.
    - cbn. destruct b; lia.
    - apply IH. destruct b; lia. }
  apply G. assert (SL : length (split_inclusive text) <= length text).
  { clear. induction text as [|c t IH]; cbn; auto. destruct (N.eqb c 10); cbn; [lia|]. destruct (split_inclusive t) as [|[]]; cbn in *; lia. }
  lia.
Qed.
(** C62: every other text is refused with an error, unless it refers to a line beyond what the machine
    can count; then the parser aborts. *)
Theorem C62_refused text : terminated text -> (N.of_nat (length text) < 2 ^ 64)%N ->
  (exists sc, parse wide valid text = Val (inl sc)) \/
  (exists e es, parse wide valid text = Val (inr (e :: es))) \/
  (parse wide valid text = Panic /\ exists nls n l, numbered text nls /\ In (n, l) nls /\ overflowing n l).
Proof.
  intros T L. unfold parse. destruct (parse_lines_panic (S (length (lines_of text))) (lines_of text) empty_script [] (lines_small text L)) as [A B].
  destruct (parse_lines wide valid _ _ _ _) as [[s es]| |]; cbn [bind]; [|congruence|].
  - destruct (existsb is_run (s_commands s)); [destruct es|destruct (es ++ [MissingRun]) eqn:E]; eauto.
  - right. right. split; auto. destruct (B eq_refl) as (n & l & I & O). exists (lines_of text), n, l. splits; auto. now apply numbered_lines.
Qed.

(** *** Continuations *)
Lemma expands_fun n s t t' : expands wide n s t -> expands wide n s t' -> t = t'.
Proof. intros H K. apply push_str_spec in H, K; auto. congruence. Qed.
Lemma continued_fun c s s' : continued c s -> continued c s' -> s = s'.
Proof. unfold continued. intros -> E. now apply app_inj_tail in E. Qed.
(** a RUN line that ends in a backslash, and what stands before it *)
Record mid := mkMid { m_line : nat; m_text : str; m_before : str; m_read : str }.
Definition is_mid (m : mid) : Prop := says (m_text m) DRun (m_before m ++ [92%N]) /\ expands wide (m_line m) (m_before m) (m_read m).
Definition mid_line (m : mid) : nat * str := (m_line m, m_text m).
Definition tail_text (ms : list mid) : str := concat (map (fun m => [92; 10]%N ++ m_read m) ms).
Lemma tail_cons m ms : tail_text (m :: ms) = [92; 10]%N ++ m_read m ++ tail_text ms.
Proof. unfold tail_text. cbn [map concat]. now rewrite <- app_assoc. Qed.
Lemma run_more_mids ms : Forall is_mid ms -> forall ls rest u, run_more wide (map mid_line ms ++ ls) rest u <-> exists u', u = tail_text ms ++ u' /\ run_more wide ls rest u'.
Proof.
  unfold run_more. induction 1 as [|m ms [S X] F IH]; intros ls rest u; [|rewrite tail_cons]; cbn [map app].
  - split; [intros H; exists u; auto|]. intros (u' & E & H). cbn in E. subst. auto.
  - split.
    + intros H. inversion H as [|n l c s x t ls' rest' u' S' C ST X' M|n l c x t ls' S' EN ST X']; subst; destruct (says_fun _ _ _ _ _ S S') as [_ E].
      * unfold continued in C. rewrite C in E. apply app_inj_tail in E as [E _]. rewrite <- E in X'. rewrite (expands_fun _ _ _ _ X' X). apply IH in M as (u'' & -> & M). exists u''. split; auto. cbn [app]. now rewrite <- !app_assoc.
      * exfalso. apply (EN (m_before m)). auto.
    + intros (u' & -> & M). cbn [app]. rewrite <- app_assoc. apply (more_line wide DRun eq rtrimmed [92; 10]%N (m_line m) (m_text m) (m_before m ++ [92%N]) (m_before m) (m_before m) (m_read m)); auto; [reflexivity|]. apply IH. exists u'. auto.
Qed.
(** C32: a RUN line that ends in a backslash is one command with the RUN lines after it, up to and
    including the first that does not: their texts, each but the first on a new line. *)
Theorem C32_joined n l s x t ms n' l' c' x' t' post is :
  says l DRun (s ++ [92%N]) -> ltrimmed s x -> expands wide n x t -> Forall is_mid ms ->
  says l' DRun c' -> ended c' -> rtrimmed c' x' -> expands wide n' x' t' ->
  (means wide valid ((n, l) :: map mid_line ms ++ (n', l') :: post) is <->
   exists is', is = IRun n (t ++ tail_text ms ++ [92; 10]%N ++ t') :: is' /\ means wide valid post is').
Proof.
  intros S T X F S' EN T' X'. split.
  - intros M. inversion M as [|? ? ? ? SL|? ? ? ? SE|? ? ? ? ? SE|? ? c ? rest u is0 S0 W M0|? ? k ? ? ? ? ? ? ? ? K S0|? ? k ? ? ? ? ? K S0|? ? k ? ? ? ? K S0|? ? ? ? ? ? S0]; subst.
    1: { exfalso. destruct S as (p & -> & _). now apply (SL DRun p (s ++ [92%N])). }
    1-2: (destruct (says_fun _ _ _ _ _ S SE); discriminate).
    2-3: (destruct (says_fun _ _ _ _ _ S S0); subst; destruct K; discriminate).
    2: { destruct (says_fun _ _ _ _ _ S S0); subst. destruct K as [K|[K|K]]; discriminate. }
    2: { destruct (says_fun _ _ _ _ _ S S0); discriminate. }
    destruct (says_fun _ _ _ _ _ S S0) as [_ <-]. exists is0. inversion W as [y u' E|s' y u' rest' v C L X0 R]; subst; [exfalso; now apply (E s)|].
    apply (continued_fun _ _ _ eq_refl) in C. subst s'. apply ltrimmed_spec in T, L. subst x y. rewrite (expands_fun _ _ _ _ X0 X).
    apply (run_more_mids ms F) in R as (v' & -> & R). inversion R as [|? ? c ? ? ? ? ? ? S1 C1|? ? c y u1 ? S1 E1 T1 X1]; subst; destruct (says_fun _ _ _ _ _ S' S1) as [_ <-]; [exfalso; eapply EN; exact C1|].
    apply rtrimmed_spec in T1, T'. subst x' y. rewrite (expands_fun _ _ _ _ X1 X'). auto.
  - intros (is' & -> & M). eapply m_run; eauto. eapply whole_more; eauto; [reflexivity|]. apply run_more_mids; auto. eexists. split; [reflexivity|]. eapply more_last; eauto.
Qed.
(** C32: a RUN line that ends in a backslash and is followed by a line that is not a RUN line is
    refused. *)
Theorem C32_interrupted n l s ms n' l' post is :
  says l DRun (s ++ [92%N]) -> Forall is_mid ms -> (forall c, ~ says l' DRun c) ->
  ~ means wide valid ((n, l) :: map mid_line ms ++ (n', l') :: post) is.
Proof.
  intros S F N M. inversion M as [|? ? ? ? SL|? ? ? ? SE|? ? ? ? ? SE|? ? c ? rest u is0 S0 W M0|? ? k ? ? ? ? ? ? ? ? K S0|? ? k ? ? ? ? ? K S0|? ? k ? ? ? ? K S0|? ? ? ? ? ? S0]; subst.
  1: { destruct S as (p & -> & _). now apply (SL DRun p (s ++ [92%N])). }
  1-2: (destruct (says_fun _ _ _ _ _ S SE); discriminate).
  2-3: (destruct (says_fun _ _ _ _ _ S S0); subst; destruct K; discriminate).
  2: { destruct (says_fun _ _ _ _ _ S S0); subst. destruct K as [K|[K|K]]; discriminate. }
  2: { destruct (says_fun _ _ _ _ _ S S0); discriminate. }
  destruct (says_fun _ _ _ _ _ S S0) as [_ <-]. inversion W as [y u' E|s' y u' rest' v C L X0 R]; subst; [now apply (E s)|].
  apply (run_more_mids ms F) in R as (v' & -> & R). inversion R as [|? ? c ? ? ? ? ? ? S1|? ? c y1 u1 ? S1]; subst; now apply (N c).
Qed.
(** C32: a RUN line without a backslash at its end is a command of its own. *)
Theorem C32_single n l c x t post is : says l DRun c -> ended c -> trimmed c x -> expands wide n x t ->
  (means wide valid ((n, l) :: post) is <-> exists is', is = IRun n t :: is' /\ means wide valid post is').
Proof.
  intros S EN T X. split.
  - intros M. inversion M as [|? ? ? ? SL|? ? ? ? SE|? ? ? ? ? SE|? ? c' ? rest u is0 S0 W M0|? ? k ? ? ? ? ? ? ? ? K S0|? ? k ? ? ? ? ? K S0|? ? k ? ? ? ? K S0|? ? ? ? ? ? S0]; subst.
    1: { destruct S as (p & -> & _). now apply SL in S || (exfalso; now apply (SL DRun p c)). }
    1-2: (destruct (says_fun _ _ _ _ _ S SE); discriminate).
    2-3: (destruct (says_fun _ _ _ _ _ S S0); subst; destruct K; discriminate).
    2: { destruct (says_fun _ _ _ _ _ S S0); subst. destruct K as [K|[K|K]]; discriminate. }
    2: { destruct (says_fun _ _ _ _ _ S S0); discriminate. }
    destruct (says_fun _ _ _ _ _ S S0) as [_ <-]. exists is0. inversion W as [y u' E T1 X1|s' y u' rest' v C L X0 R]; subst; [|exfalso; eapply EN; exact C].
    apply trimmed_spec in T, T1. subst x y. rewrite (expands_fun _ _ _ _ X1 X). auto.
  - intros (is' & -> & M). eapply m_run; eauto. eapply whole_one; eauto.
Qed.
End Props.
(** A script with a continued command, a substitution and a reference to its line. *)
Example C62_ex : exists sc, parse (fun _ => false) (fun _ => true) (of_string "// RUN: foo %(line) \
// RUN: bar%(line - 1)
; DEFINE: %{x} = a\
; DEFINE:  b
REQUIRES: u, !v
" ) = Val (inl sc) /\
  s_commands sc = [Run 1 (of_string "foo 1 \
 bar1"); Subst 3 (of_string "%{x}") (of_string "a b") false] /\
  s_requires sc = [BoolExpr_Model.Var (of_string "u"); BoolExpr_Model.Not (BoolExpr_Model.Var (of_string "v"))].
Proof. eexists. splits; vm_compute; reflexivity. Qed.

(** C31 is false of a text whose last line lacks its line feed: the line is counted as the one before
    it, or as line 0 when it is the only one. *)
Theorem C31_last_line_refuted : exists text nls, parse (fun _ => false) (fun _ => true) text = Val (inl (mkScript [Run 0 (of_string "echo 0")] [] [] [] None)) /\
  numbered text nls /\ nls = [(1, of_string "RUN: echo %(line)")] /\ text = of_string "RUN: echo %(line)".
Proof.
  exists (of_string "RUN: echo %(line)"), [(1, of_string "RUN: echo %(line)")]. splits; auto.
  exists [of_string "RUN: echo %(line)"], [of_string "RUN: echo %(line)"]. splits; auto.
  - apply cut_last; [easy|]. cbn. intuition discriminate.
  - constructor; [now apply bare_spec|constructor].
Qed.
(** C32 is false of a continuation with nothing after it: it is accepted. *)
Theorem C32_dangling_refuted : parse (fun _ => false) (fun _ => true) (of_string "RUN: a \
") = Val (inl (mkScript [Run 1 (of_string "a ")] [] [] [] None)).
Proof. vm_compute. reflexivity. Qed.
(** A definition without an equals sign is ignored rather than refused. *)
Theorem C62_no_equals_refuted : parse (fun _ => false) (fun _ => true) (of_string "DEFINE: %{x} foo
RUN: a
") = Val (inl (mkScript [Run 2 (of_string "a")] [] [] [] None)).
Proof. vm_compute. reflexivity. Qed.
(** A reference beyond the last line the machine can count aborts. *)
Theorem C62_abort_refuted : parse (fun _ => false) (fun _ => true) (of_string "RUN: %(line+18446744073709551615)
") = Panic.
Proof. vm_compute. reflexivity. Qed.
(** A comma inside a regular expression splits the list of expressions. *)
Theorem C62_comma_refuted : exists es, parse (fun _ => false) (fun _ => true) (of_string "REQUIRES: {{a,b}}
RUN: a
") = Val (inr es) /\ BoolExpr_Model.parse (fun _ => true) (of_string "{{a,b}}") = BoolExpr_Model.Ok (BoolExpr_Model.Pattern (of_string "(a,b)")).
Proof. eexists. split; vm_compute; reflexivity. Qed.

Print Assumptions C62_script.
Print Assumptions C62_unterminated.
Print Assumptions C62_refused.
Print Assumptions C31_lines_partial.
Print Assumptions C32_joined.
Print Assumptions C32_interrupted.
Print Assumptions C32_single.
Print Assumptions C31_last_line_refuted.
