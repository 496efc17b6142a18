(** C87: reading files. *)
From Coq Require Import String ZifyClasses ZifyN Zify Lia.
From Verif Require Import Base Text_Model Cursor_Model Source_Model Mgr_Model Input_Model Input_Spec.
Open Scope string_scope.
Open Scope list_scope.
Open Scope nat_scope.
Ltac splits := repeat match goal with |- _ /\ _ => split end.

(** * UTF-8 *)
Ltac bounds := unfold within, continues, second_of_3, second_of_4 in *;
  repeat match goal with
  | H : (_ || _)%bool = true |- _ => apply orb_true_iff in H
  | H : (_ && _)%bool = true |- _ => apply andb_true_iff in H as [? ?]
  | H : _ \/ _ |- _ => destruct H
  | H : (_ =? _)%N = true |- _ => apply N.eqb_eq in H
  | H : (_ <=? _)%N = true |- _ => apply N.leb_le in H
  | H : (_ <? _)%N = true |- _ => apply N.ltb_lt in H
  | H : (_ <=? _)%N = false |- _ => apply N.leb_gt in H
  | H : (_ <? _)%N = false |- _ => apply N.ltb_ge in H
  end.
Lemma within_iff a b x : within a b x = true <-> (a <= x <= b)%N.
Proof. unfold within. rewrite andb_true_iff, !N.leb_le. tauto. Qed.
Lemma within_in a b x : (a <= x <= b)%N -> within a b x = true.
Proof. apply within_iff. Qed.
Lemma within_out a b x : (x < a \/ b < x)%N -> within a b x = false.
Proof. intros H. destruct (within a b x) eqn:E; auto. apply within_iff in E. lia. Qed.
Ltac Zify.zify_post_hook ::= Z.to_euclidean_division_equations.
Lemma second3_iff x y : second_of_3 x y = true <-> (x = 224 /\ 160 <= y <= 191 \/ 225 <= x <= 236 /\ 128 <= y <= 191 \/ x = 237 /\ 128 <= y <= 159 \/ 238 <= x <= 239 /\ 128 <= y <= 191)%N.
Proof. unfold second_of_3. rewrite !orb_true_iff, !andb_true_iff, !within_iff, !N.eqb_eq. tauto. Qed.
Lemma second4_iff x y : second_of_4 x y = true <-> (x = 240 /\ 144 <= y <= 191 \/ 241 <= x <= 243 /\ 128 <= y <= 191 \/ x = 244 /\ 128 <= y <= 143)%N.
Proof. unfold second_of_4. rewrite !orb_true_iff, !andb_true_iff, !within_iff, !N.eqb_eq. tauto. Qed.
Lemma continues_iff y : continues y = true <-> (128 <= y <= 191)%N.
Proof. apply within_iff. Qed.
Lemma encode_valid c r : scalar c -> from_utf8 (encode c ++ r) = from_utf8 r.
Proof.
  intros Sc. unfold scalar in Sc. unfold encode. destruct (c <? 128)%N eqn:E1; [cbn; rewrite E1; reflexivity|apply N.ltb_ge in E1].
  destruct (c <? 2048)%N eqn:E2; [apply N.ltb_lt in E2|apply N.ltb_ge in E2].
  { cbn [app from_utf8]. rewrite (proj2 (N.ltb_ge _ _)) by lia. rewrite within_in by lia. rewrite (proj2 (continues_iff _)) by lia. reflexivity. }
  destruct (c <? 65536)%N eqn:E3; [apply N.ltb_lt in E3|apply N.ltb_ge in E3].
  { cbn [app from_utf8]. rewrite (proj2 (N.ltb_ge _ _)) by lia. rewrite (within_out 194) by lia. rewrite within_in by lia.
    rewrite (proj2 (continues_iff _)) by lia. rewrite (proj2 (second3_iff _ _)) by lia. reflexivity. }
  cbn [app from_utf8]. rewrite (proj2 (N.ltb_ge _ _)) by lia. rewrite (within_out 194), (within_out 224) by lia. rewrite within_in by lia.
  rewrite !(proj2 (continues_iff _)) by lia. rewrite (proj2 (second4_iff _ _)) by lia. reflexivity.
Qed.
Lemma valid_encode x r : from_utf8 (x :: r) = true -> exists c r', scalar c /\ x :: r = encode c ++ r' /\ from_utf8 r' = true.
Proof.
  cbn [from_utf8]. destruct (x <? 128)%N eqn:E1.
  { intros V. exists x, r. unfold scalar, encode. rewrite E1. apply N.ltb_lt in E1. splits; auto. lia. }
  apply N.ltb_ge in E1. destruct (within 194 223 x) eqn:E2.
  { apply within_iff in E2. destruct r as [|y r]; [discriminate|]. intros V. apply andb_true_iff in V as [Cy V]. apply continues_iff in Cy.
    exists ((x - 192) * 64 + (y - 128))%N, r. unfold scalar, encode. splits; auto; [lia|].
    rewrite (proj2 (N.ltb_ge _ _)) by lia. rewrite (proj2 (N.ltb_lt _ _)) by lia. cbn [app]. repeat f_equal; lia. }
  destruct (within 224 239 x) eqn:E3.
  { apply within_iff in E3. destruct r as [|y [|z r]]; try discriminate. intros V. apply andb_true_iff in V as [V V']. apply andb_true_iff in V as [Sy Cz].
    apply continues_iff in Cz. apply second3_iff in Sy.
    exists ((x - 224) * 4096 + (y - 128) * 64 + (z - 128))%N, r. unfold scalar, encode. splits; auto; [lia|].
    rewrite !(proj2 (N.ltb_ge _ _)) by lia. rewrite (proj2 (N.ltb_lt _ _)) by lia. cbn [app]. repeat f_equal; lia. }
  destruct (within 240 244 x) eqn:E4; [|discriminate].
  apply within_iff in E4. destruct r as [|y [|z [|t r]]]; try discriminate. intros V. apply andb_true_iff in V as [V V']. apply andb_true_iff in V as [V Ct]. apply andb_true_iff in V as [Sy Cz].
  apply continues_iff in Cz, Ct. apply second4_iff in Sy.
  exists ((x - 240) * 262144 + (y - 128) * 4096 + (z - 128) * 64 + (t - 128))%N, r. unfold scalar, encode. splits; auto; [lia|].
  rewrite !(proj2 (N.ltb_ge _ _)) by lia. cbn [app]. repeat f_equal; lia.
Qed.
Ltac Zify.zify_post_hook ::= idtac.
Lemma encode_length c : 0 < length (encode c).
Proof. unfold encode. repeat destruct (_ <? _)%N; cbn; lia. Qed.
Lemma utf8_iff b : from_utf8 b = true <-> is_utf8 b.
Proof.
  split.
  - remember (length b) as n eqn:L. assert (length b <= n) by lia. clear L. revert b H. induction n as [|n IH]; intros b L V.
    + destruct b; [|cbn in L; lia]. exists []. split; [constructor|reflexivity].
    + destruct b as [|x r]; [exists []; split; [constructor|reflexivity]|]. apply valid_encode in V as (c & r' & Sc & E & V).
      destruct (IH r') as (cs & F & D); auto.
      { apply (f_equal (@length N)) in E. rewrite app_length in E. pose proof (encode_length c). cbn in *. lia. }
      exists (c :: cs). split; [now constructor|]. cbn. now rewrite E, D.
  - intros (cs & F & ->). induction F as [|c cs Sc F IH]; [reflexivity|]. cbn. now rewrite encode_valid.
Qed.

(** * Lines *)
Lemma utf8_lf l r : from_utf8 (l ++ LF :: r) = from_utf8 l && from_utf8 r.
Proof.
  remember (length l) as n eqn:L. assert (length l <= n) by lia. clear L. revert l H. induction n as [|n IH]; intros l L.
  { destruct l; [reflexivity|cbn in L; lia]. }
  destruct l as [|x l]; [reflexivity|]. cbn [app from_utf8]. cbn in L. destruct (x <? 128)%N; [apply IH; lia|].
  destruct (within 194 223 x); [destruct l as [|y l]; [reflexivity|cbn [app]; cbn in L; rewrite IH by lia; now rewrite andb_assoc]|].
  destruct (within 224 239 x).
  { destruct l as [|y [|z l]]; cbn [app]; cbn in L.
    - destruct r; [reflexivity|]. replace (second_of_3 x LF) with false; [reflexivity|]. symmetry. apply not_true_is_false. rewrite second3_iff. unfold LF. lia.
    - replace (continues LF) with false by reflexivity. now rewrite andb_false_r.
    - rewrite IH by lia. now rewrite !andb_assoc. }
  destruct (within 240 244 x); [|reflexivity].
  destruct l as [|y [|z [|t l]]]; cbn [app]; cbn in L.
  - destruct r as [|a [|b r]]; try reflexivity. replace (second_of_4 x LF) with false; [reflexivity|]. symmetry. apply not_true_is_false. rewrite second4_iff. unfold LF. lia.
  - destruct r as [|a r]; try reflexivity. replace (continues LF) with false by reflexivity. now rewrite andb_false_r.
  - replace (continues LF) with false by reflexivity. now rewrite andb_false_r.
  - rewrite IH by lia. now rewrite !andb_assoc.
Qed.
Lemma raw_lf l r : ~ In LF l -> raw_lines (l ++ LF :: r) = (l ++ [LF]) :: raw_lines r.
Proof.
  induction l as [|x l IH]; intros N; [reflexivity|]. cbn [app raw_lines]. destruct (N.eqb_spec x LF) as [->|D]; [exfalso; apply N; now left|].
  rewrite IH by (intros K; apply N; now right). reflexivity.
Qed.
Lemma raw_last l : l <> [] -> ~ In LF l -> raw_lines l = [l].
Proof.
  induction l as [|x l IH]; intros D N; [congruence|]. cbn [raw_lines]. destruct (N.eqb_spec x LF) as [->|Dx]; [exfalso; apply N; now left|].
  destruct l as [|y l]; [reflexivity|]. rewrite IH; [reflexivity|discriminate|intros K; apply N; now right].
Qed.
Lemma line_split b : (exists l r, b = l ++ LF :: r /\ ~ In LF l) \/ ~ In LF b.
Proof.
  induction b as [|x b IH]; [right; intros []|]. destruct (N.eq_dec x LF) as [->|D]; [left; exists [], b; now split|].
  destruct IH as [(l & r & -> & N)|N]; [left; exists (x :: l), r; split; [reflexivity|]|right]; intros [K|K]; auto.
Qed.
(** Induction over the lines *)
Lemma by_lines (P : bytes -> Prop) : P [] -> (forall l, l <> [] -> ~ In LF l -> P l) -> (forall l r, ~ In LF l -> P r -> P (l ++ LF :: r)) -> forall b, P b.
Proof.
  intros P0 P1 P2 b. remember (length b) as n eqn:L. assert (length b <= n) by lia. clear L. revert b H. induction n as [|n IH]; intros b L.
  { destruct b; [exact P0|cbn in L; lia]. }
  destruct (line_split b) as [(l & r & -> & N)|N].
  - apply P2; auto. apply IH. rewrite app_length in L. cbn in L. lia.
  - destruct b as [|x b]; [exact P0|]. apply P1; auto. discriminate.
Qed.
Lemma raw_utf8 b : forallb from_utf8 (raw_lines b) = from_utf8 b.
Proof.
  induction b as [|l D N|l r N IH] using by_lines; [reflexivity|rewrite raw_last by auto; cbn; apply andb_true_r|].
  rewrite raw_lf by auto. cbn [forallb]. rewrite IH, (utf8_lf l r), (utf8_lf l []). cbn. now rewrite andb_true_r.
Qed.
Lemma ends_snoc l x y : ends_with x (l ++ [y]) = N.eqb x y.
Proof. unfold ends_with. now rewrite rev_app_distr. Qed.
Definition trim (l : bytes) : bytes := if ends_with CR l then removelast l else l.
Lemma chomp_lf l : chomp (l ++ [LF]) = trim l.
Proof. unfold chomp, trim. rewrite ends_snoc. cbn [N.eqb LF Pos.eqb]. now rewrite removelast_last. Qed.
Lemma chomp_last l : ~ In LF l -> chomp l = l.
Proof.
  intros N. unfold chomp. destruct (ends_with LF l) eqn:E; auto. exfalso. unfold ends_with in E. destruct (rev l) as [|y t] eqn:R; [discriminate|].
  apply N.eqb_eq in E as <-. apply N. apply in_rev. rewrite R. now left.
Qed.
(** The text of the lines *)
Definition joined (b : bytes) : bytes := join [LF] (map chomp (raw_lines b)).
Lemma join_from i c ls : join_lines i c (map (fun l => if from_utf8 l then Val (chomp l) else Err) ls) =
  if forallb from_utf8 ls then Val (c ++ match ls with [] => [] | _ => (if 0 <? i then [LF] else []) ++ join [LF] (map chomp ls) end) else Err.
Proof.
  revert i c. induction ls as [|l ls IH]; intros i c; cbn [map join_lines forallb].
  - now rewrite app_nil_r.
  - destruct (from_utf8 l); [|reflexivity]. cbn [andb bind]. rewrite IH. destruct (forallb from_utf8 ls); [|reflexivity]. f_equal.
    assert (E : (if 0 <? i then c ++ [LF] else c) = c ++ (if 0 <? i then [LF] else [])) by (destruct (0 <? i); auto; now rewrite app_nil_r).
    rewrite E. destruct ls as [|m ls]; cbn [map join app Nat.ltb Nat.leb]; rewrite <- ?app_assoc, ?app_nil_r; reflexivity.
Qed.
Lemma next_total ls : next_lines ls false = map (fun l => if from_utf8 l then Val (chomp l) else Err) ls.
Proof.
  induction ls as [|l ls IH]; [reflexivity|]. cbn [next_lines]. destruct ls as [|m ls]; [destruct (ends_with LF l); reflexivity|].
  rewrite IH. reflexivity.
Qed.
Lemma next_fails ls i c : join_lines i c (next_lines ls true) = Err.
Proof.
  revert i c. induction ls as [|l ls IH]; intros i c; [reflexivity|]. cbn [next_lines]. destruct ls as [|m ls].
  - destruct (ends_with LF l); [|reflexivity]. cbn [join_lines]. destruct (from_utf8 l); reflexivity.
  - cbn [join_lines]. destruct (from_utf8 l); [cbn [bind]; apply IH|reflexivity].
Qed.
Lemma read_joined b : join_lines 0 [] (next_lines (raw_lines b) false) = if from_utf8 b then Val (joined b) else Err.
Proof.
  rewrite next_total, join_from, raw_utf8. destruct (from_utf8 b); [|reflexivity]. f_equal. unfold joined. now destruct (raw_lines b).
Qed.
Lemma unix_self l : ~ In LF l -> unix l l.
Proof.
  induction l as [|x l IH]; intros N; [constructor|]. constructor; [|apply IH; intros K; apply N; now right].
  intros t [= -> ->]. apply N. right. now left.
Qed.
Lemma trim_cons x l : l <> [] -> trim (x :: l) = x :: trim l.
Proof.
  intros D. unfold trim, ends_with. cbn [rev]. destruct (rev l) as [|y t] eqn:R; [apply (f_equal (@rev N)) in R; rewrite rev_involutive in R; cbn in R; congruence|].
  cbn [app]. destruct (N.eqb CR y); [|reflexivity]. destruct l; [congruence|reflexivity].
Qed.
Lemma unix_line l r u : ~ In LF l -> unix r u -> unix (l ++ LF :: r) (trim l ++ LF :: u).
Proof.
  intros N U. induction l as [|x l IH].
  - cbn. constructor; auto. intros t [=].
  - assert (Nl : ~ In LF l) by (intros K; apply N; now right). destruct l as [|y l].
    + cbn [app]. unfold trim, ends_with. cbn [rev app removelast]. destruct (N.eqb_spec CR x) as [<-|D]; [now constructor|].
      cbn [app]. constructor; [intros t [= K _]; congruence|]. constructor; auto. intros t [=].
    + rewrite trim_cons by discriminate. cbn [app] in *. constructor; auto. intros t [= _ -> _]. apply Nl. now left.
Qed.
Lemma unix_det b u : unix b u -> forall u', unix b u' -> u = u'.
Proof.
  induction 1 as [|r u U IH|x r u D U IH]; intros u' U'.
  - now inversion U'.
  - inversion U'; subst; [f_equal; now apply IH|]. exfalso. eapply H1. reflexivity.
  - inversion U'; subst; [exfalso; eapply D; reflexivity|f_equal; now apply IH].
Qed.
Lemma unended_det u t t' : unended u t -> unended u t' -> t = t'.
Proof.
  intros [->|[-> N]] [E|[E N']]; auto.
  - now apply app_inj_tail in E as [E _].
  - exfalso. now apply (N' t).
  - exfalso. now apply (N t').
Qed.
Lemma unix_joined b : exists u, unix b u /\ unended u (joined b) /\ (b <> [] -> u <> []).
Proof.
  unfold joined. induction b as [|l D N|l r N IH] using by_lines.
  - exists []. splits; [constructor|right; split; [reflexivity|intros [|] K; discriminate]|congruence].
  - exists l. rewrite raw_last by auto. cbn [map join]. rewrite chomp_last by auto. splits; [now apply unix_self|right; split; auto|auto].
    intros v ->. apply N. apply in_or_app. right. now left.
  - destruct IH as (u & U & En & Ne). exists (trim l ++ LF :: u). rewrite raw_lf by auto. cbn [map]. rewrite chomp_lf. splits; [now apply unix_line| |destruct (trim l); discriminate].
    destruct (raw_lines r) as [|m ms] eqn:R.
    + cbn [map join] in En |- *. destruct r as [|x r].
      * assert (u = []) as -> by (inversion U; reflexivity). left. reflexivity.
      * exfalso. cbn in R. destruct (N.eqb x LF); [discriminate|]. destruct (raw_lines r); discriminate.
    + cbn [map join]. cbn [map] in En. destruct En as [->|[E Nu]].
      * left. cbn [app]. rewrite <- app_assoc. reflexivity.
      * right. split; [now rewrite E|]. intros v K. destruct u as [|x u] using rev_ind; [apply Ne; [intros ->; discriminate|reflexivity]|].
        replace (trim l ++ LF :: u ++ [x]) with ((trim l ++ LF :: u) ++ [x]) in K by (rewrite <- app_assoc; reflexivity).
        apply app_inj_tail in K as [_ ->]. now apply (Nu u).
Qed.

(** * Reading *)
Lemma open_iff y p s : input_open y p = Val s <-> p = Utf8 "-" /\ sys_stdin y = s \/ p <> Utf8 "-" /\ sys_open y p = Some s.
Proof.
  unfold input_open. destruct p as [x|x].
  - destruct (str_eqb x "-") eqn:E.
    + apply str_eqb_eq in E. subst. split; [intros [= <-]; now left|intros [[_ <-]|[D _]]; [reflexivity|congruence]].
    + apply str_eqb_neq in E. destruct (sys_open y (Utf8 x)); split.
      * intros [= <-]. right. split; congruence.
      * intros [[K _]|[_ [= ->]]]; congruence.
      * discriminate.
      * intros [[K _]|[_ K]]; congruence.
  - destruct (sys_open y (Raw x)); split.
    + intros [= <-]. right. split; congruence.
    + intros [[K _]|[_ [= ->]]]; congruence.
    + discriminate.
    + intros [[K _]|[_ K]]; congruence.
Qed.
Lemma contains_iff y p b : contains y p b <-> input_open y p = Val (mkStream b false).
Proof. rewrite open_iff. reflexivity. Qed.

(** A strict reading gives exactly what the file holds, if that is UTF-8; otherwise it fails. *)
Theorem strict_exact y p t : read_to_string y p true = Val t <-> contains y p t /\ is_utf8 t.
Proof.
  rewrite contains_iff, <- utf8_iff. unfold read_to_string. destruct (input_open y p) as [[b f]| |]; cbn [bind st_bytes st_fails].
  - destruct f; [split; [discriminate|intros [[=] _]]|]. destruct (from_utf8 b) eqn:E; split.
    + intros [= <-]. now split.
    + intros [[= ->] _]. reflexivity.
    + discriminate.
    + intros [[= ->] K]. congruence.
  - split; [discriminate|intros [[=] _]].
  - split; [discriminate|intros [[=] _]].
Qed.
Print Assumptions strict_exact.

(** A reading that is not strict gives the text with Unix line ends and without the line feed at its end. *)
Theorem lines_exact y p t : read_to_string y p false = Val t <-> exists b u, contains y p b /\ is_utf8 b /\ unix b u /\ unended u t.
Proof.
  unfold read_to_string. split.
  - destruct (input_open y p) as [[b f]| |] eqn:O; cbn [bind st_bytes st_fails]; try discriminate. destruct f; [rewrite next_fails; discriminate|].
    rewrite read_joined. destruct (from_utf8 b) eqn:V; [|discriminate]. intros [= <-]. destruct (unix_joined b) as (u & U & En & _).
    exists b, u. splits; auto; [now apply contains_iff|now apply utf8_iff].
  - intros (b & u & C & V & U & En). apply contains_iff in C. rewrite C. cbn [bind st_bytes st_fails]. rewrite read_joined. apply utf8_iff in V. rewrite V.
    f_equal. destruct (unix_joined b) as (u' & U' & En' & _). assert (u' = u) as -> by (eapply unix_det; eauto). eapply unended_det; eauto.
Qed.
Print Assumptions lines_exact.

(** Reading never panics. *)
Theorem reading_total y p strict : read_to_string y p strict <> Panic.
Proof.
  unfold read_to_string. destruct (input_open y p) as [[b f]| |] eqn:O; cbn [bind]; [|discriminate|].
  - cbn [st_bytes st_fails]. destruct strict, f; try discriminate; [|rewrite next_fails; discriminate|rewrite read_joined];
    destruct (from_utf8 b); discriminate.
  - unfold input_open in O. destruct p as [x|x]; [destruct (str_eqb x "-"); [discriminate|]|]; destruct (sys_open y _); discriminate.
Qed.
Print Assumptions reading_total.

(** Both ways of reading succeed on the same files: those that can be read to their end and are UTF-8. *)
Theorem reading_fails y p strict : read_to_string y p strict = Err <-> ~ exists b, contains y p b /\ is_utf8 b.
Proof.
  assert (T := reading_total y p strict). destruct strict.
  - destruct (read_to_string y p true) as [t| |] eqn:R; [|split; auto|congruence].
    + apply strict_exact in R. split; [discriminate|intros K; exfalso; eauto].
    + intros _ (b & H). apply strict_exact in H. congruence.
  - destruct (read_to_string y p false) as [t| |] eqn:R; [|split; auto|congruence].
    + apply lines_exact in R as (b & u & C & V & _). split; [discriminate|intros K; exfalso; eauto].
    + intros _ (b & C & V). destruct (unix_joined b) as (u & U & En & _). assert (K : read_to_string y p false = Val (joined b)) by (apply lines_exact; eauto 8). congruence.
Qed.
Print Assumptions reading_fails.

(** The text is put together without checking that it is UTF-8 (the code's [unsafe] block): it always is. *)
Lemma encode_last c : exists v x, encode c = v ++ [x] /\ (CR = x -> c = CR).
Proof.
  unfold encode. destruct (c <? 128)%N; [exists [], c; now split|]. unfold CR.
  destruct (c <? 2048)%N; [|destruct (c <? 65536)%N].
  - exists [192 + c / 64]%N, (128 + c mod 64)%N. split; [reflexivity|]. pose proof (N.le_0_l (c mod 64)). lia.
  - exists [224 + c / 4096; 128 + c / 64 mod 64]%N, (128 + c mod 64)%N. split; [reflexivity|]. pose proof (N.le_0_l (c mod 64)). lia.
  - exists [240 + c / 262144; 128 + c / 4096 mod 64; 128 + c / 64 mod 64]%N, (128 + c mod 64)%N. split; [reflexivity|]. pose proof (N.le_0_l (c mod 64)). lia.
Qed.
Lemma utf8_trim l : from_utf8 l = true -> from_utf8 (trim l) = true.
Proof.
  unfold trim. intros V. destruct (ends_with CR l) eqn:E; auto. destruct l as [|x l] using rev_ind; [reflexivity|].
  rewrite ends_snoc in E. apply N.eqb_eq in E as <-. rewrite removelast_last. clear IHl. apply utf8_iff in V as (cs & F & E). apply utf8_iff.
  destruct cs as [|c cs] using rev_ind; [destruct l; discriminate|]. clear IHcs. apply Forall_app in F as [F Fc]. inversion Fc as [|? ? Sc _]; subst.
  exists cs. split; auto. rewrite map_app, concat_app in E. cbn [map concat] in E. rewrite app_nil_r in E. assert (c = CR) as ->.
  { destruct (encode_last c) as (v & x & Ex & K). rewrite Ex, app_assoc in E. apply app_inj_tail in E as [_ E]. auto. }
  change (encode CR) with [CR] in E. now apply app_inj_tail in E as [-> _].
Qed.
Theorem result_utf8 y p strict t : read_to_string y p strict = Val t -> is_utf8 t.
Proof.
  destruct strict; intros R; [now apply strict_exact in R|]. apply lines_exact in R as (b & u & _ & V & U & En). apply utf8_iff in V. apply utf8_iff.
  destruct (unix_joined b) as (u' & U' & En' & _). assert (u' = u) as -> by (eapply unix_det; eauto). rewrite (unended_det _ _ _ En En'). clear - V.
  unfold joined. induction b as [|l D N|l r N IH] using by_lines; [reflexivity|rewrite raw_last by auto; cbn [map join]; now rewrite chomp_last|].
  rewrite utf8_lf in V. apply andb_true_iff in V as [Vl Vr]. rewrite raw_lf by auto. cbn [map]. rewrite chomp_lf. specialize (IH Vr).
  destruct (map chomp (raw_lines r)) as [|m ms]; [now apply utf8_trim|]. change (join [LF] (trim l :: m :: ms)) with (trim l ++ LF :: join [LF] (m :: ms)). rewrite utf8_lf, utf8_trim, IH; auto.
Qed.
Print Assumptions result_utf8.

(** Windows line ends are read as Unix line ends. *)
Lemma unix_windows t w : ~ In CR t -> windows t w -> unix w t.
Proof.
  intros N W. induction W as [|t w W IH|x t w D W IH]; [constructor|constructor; apply IH; intros K; apply N; now right|].
  constructor; [|apply IH; intros K; apply N; now right]. intros v [= -> _]. apply N. now left.
Qed.
Lemma unix_plain t : ~ In CR t -> unix t t.
Proof. induction t as [|x t IH]; intros N; constructor; [intros v [= -> _]; apply N; now left|apply IH; intros K; apply N; now right]. Qed.
Lemma windows_utf8 t w : windows t w -> from_utf8 t = true -> from_utf8 w = true.
Proof.
  intros W. revert w W. induction t as [|l D N|l r N IH] using by_lines; intros w W V.
  - inversion W. reflexivity.
  - assert (w = l) as ->; auto. clear - W N. induction W; [reflexivity|exfalso; apply N; now left|f_equal; apply IHW; intros K; apply N; now right].
  - assert (exists v, w = l ++ CR :: LF :: v /\ windows r v) as (v & -> & Wr).
    { clear - W N. revert w W. induction l as [|x l IHl]; intros w W; cbn [app] in W.
      - inversion W; subst; [eexists; split; [reflexivity|assumption]|congruence].
      - inversion W; subst; [exfalso; apply N; now left|]. destruct (IHl ltac:(intros K; apply N; now right) _ H3) as (v & -> & Wr). exists v. now split. }
    rewrite utf8_lf in V. apply andb_true_iff in V as [Vl Vr]. replace (l ++ CR :: LF :: v) with ((l ++ [CR]) ++ LF :: v) by (rewrite <- app_assoc; reflexivity).
    rewrite utf8_lf, (IH v) by auto. rewrite andb_true_r. clear - Vl. apply utf8_iff. apply utf8_iff in Vl as (cs & F & ->). exists (cs ++ [CR]). split.
    + apply Forall_app. split; auto. constructor; [|constructor]. left. reflexivity.
    + rewrite map_app, concat_app. reflexivity.
Qed.
Theorem windows_same y y' p t w : ~ In CR t -> windows t w -> is_utf8 t -> contains y p t -> contains y' p w ->
  exists r, read_to_string y p false = Val r /\ read_to_string y' p false = Val r /\ unended t r.
Proof.
  intros N W V C C'. destruct (unix_joined t) as (u & U & En & _). assert (u = t) as -> by (eapply unix_det; eauto using unix_plain).
  exists (joined t). splits; auto; apply lines_exact; [exists t, t; auto|exists w, t]. splits; auto; [apply utf8_iff; apply utf8_iff in V; eapply windows_utf8; eauto|now apply unix_windows].
Qed.
Print Assumptions windows_same.

(** Not so: reading the text that was read gives it again; a strict reading and another one agree on texts without carriage returns;
    no carriage return is left before a line feed. *)
Definition one (b : bytes) : system := mkSystem (fun _ => Some (mkStream b false)) (mkStream [] false).
Theorem again_refuted : ~ forall b t p, read_to_string (one b) p false = Val t -> p <> Utf8 "-" -> read_to_string (one t) p false = Val t.
Proof. intros H. specialize (H (of_string "a" ++ [LF; LF]) (of_string "a" ++ [LF]) (Utf8 "f") eq_refl ltac:(discriminate)). discriminate. Qed.
Theorem final_newline_refuted : ~ forall y p t, ~ In CR t -> read_to_string y p true = Val t -> read_to_string y p false = Val t.
Proof. intros H. specialize (H (one (of_string "a" ++ [LF])) (Utf8 "f") (of_string "a" ++ [LF])). cbv in H. specialize (H ltac:(intuition discriminate) eq_refl). discriminate. Qed.
Theorem carriage_refuted : ~ forall y p t a b, read_to_string y p false = Val t -> t <> a ++ CR :: LF :: b.
Proof. intros H. now apply (H (one ([CR; CR; LF] ++ of_string "a")) (Utf8 "f") ([CR; LF] ++ of_string "a") [] (of_string "a")). Qed.
Print Assumptions again_refuted.
Print Assumptions final_newline_refuted.
Print Assumptions carriage_refuted.

(** * Looking for files *)
(** The directory itself is the first entry that is walked: the call on any directory calls itself again, for ever. *)
Theorem listing_ends_refuted fuel keep p below : listing fuel keep (NDir p below) = None.
Proof. induction fuel as [|fuel IH]; [reflexivity|]. cbn [listing walk]. now rewrite IH. Qed.
Print Assumptions listing_ends_refuted.
(** On a file the call ends, with that file if it is of one of the types. *)
Theorem listing_file fuel types p e : exists l, get_file_types (S fuel) types (NFile p e) = Some l /\
  (l = [p] /\ (exists x, e = Some x /\ In x types) \/ l = [] /\ ~ exists x, e = Some x /\ In x types).
Proof.
  exists (if of_type types p e then [p] else []). split; [unfold get_file_types; cbn [listing walk]; now destruct (of_type types p e)|]. unfold of_type. destruct e as [x|]; [|right; split; [reflexivity|intros (? & [=] & _)]].
  destruct (existsb (str_eqb x) types) eqn:E; [left|right]; (split; [reflexivity|]).
  - apply existsb_exists in E as (y & I & E). apply str_eqb_eq in E as ->. eauto.
  - intros (y & [= <-] & I). assert (existsb (str_eqb x) types = true); [|congruence]. apply existsb_exists. exists x. split; [exact I|now apply str_eqb_eq].
Qed.
Print Assumptions listing_file.

(** A script with Windows line ends, a character of two bytes and a final line end; a file that is not UTF-8; the standard input *)
Example reading :
  let script := of_string "# RUN: echo " ++ [195; 169; CR; LF]%N ++ of_string "x" ++ [CR; CR; LF; LF] in
  let y := mkSystem (fun p => match p with Utf8 s => if str_eqb s "a.sh" then Some (mkStream script false) else if str_eqb s "b" then Some (mkStream [237; 160; 128]%N false) else None | Raw _ => None end) (mkStream (of_string "in") false) in
  read_to_string y (Utf8 "a.sh") false = Val (of_string "# RUN: echo " ++ [195; 169; LF]%N ++ of_string "x" ++ [CR; LF]) /\
  read_to_string y (Utf8 "a.sh") true = Val script /\ read_to_string y (Utf8 "b") true = Err /\ read_to_string y (Utf8 "b") false = Err /\
  read_to_string y (Utf8 "-") false = Val ("in" : str) /\ read_to_string y (Utf8 "c") false = Err /\ contains y (Utf8 "a.sh") script /\
  is_utf8 script /\ get_file_types 2 ["sh" : str] (NFile (Utf8 "a.sh") (Some ("sh" : str))) = Some [Utf8 "a.sh"].
Proof. intros script y. splits; try reflexivity; [right; split; [discriminate|reflexivity]|now apply utf8_iff]. Qed.
Example windows_ends : windows (of_string "a" ++ [LF] ++ of_string "b" ++ [LF]) (of_string "a" ++ [CR; LF] ++ of_string "b" ++ [CR; LF]).
Proof. cbn. repeat first [apply wn_lf|apply wn_other; [discriminate|]|apply wn_nil]. Qed.
