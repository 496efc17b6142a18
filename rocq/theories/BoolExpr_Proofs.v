From Verif Require Import Base BoolExpr_Model BoolExpr_Spec.
From Coq Require Import String ZifyBool ZifyN.
Local Open Scope N_scope.

(** ** Character classes *)
Lemma is_ident_spec c : is_ident c = true <-> ident_char c.
Proof.
  unfold ident_char. split.
  - intro H. unfold is_ident in H.
    assert (Hc : c < 128) by lia.
    assert (Hall : forallb (fun k => let c := N.of_nat k in implb (is_ident c)
              (existsb (N.eqb c) (of_string "-+=._abcdefghijklmnopqrstuvwxyzABCDEFGHIJKLMNOPQRSTUVWXYZ0123456789"))) (seq 0 128) = true)
      by (vm_compute; reflexivity).
    rewrite forallb_forall in Hall. specialize (Hall (N.to_nat c)).
    assert (Hin : In (N.to_nat c) (seq 0 128)) by (apply in_seq; lia).
    specialize (Hall Hin). cbv zeta in Hall. rewrite N2Nat.id in Hall.
    fold (is_ident c) in H. rewrite H in Hall. cbn [implb] in Hall.
    apply existsb_exists in Hall as (x & Hx & Hxe). apply N.eqb_eq in Hxe. now subst.
  - intro H.
    assert (Hall : forallb is_ident (of_string "-+=._abcdefghijklmnopqrstuvwxyzABCDEFGHIJKLMNOPQRSTUVWXYZ0123456789") = true)
      by (vm_compute; reflexivity).
    rewrite forallb_forall in Hall. now apply Hall.
Qed.

Lemma is_ident_false c : is_ident c = false <-> ~ ident_char c.
Proof. rewrite <- is_ident_spec. destruct (is_ident c); split; congruence. Qed.

Lemma is_white_spec c : is_whitespace c = true <-> white c.
Proof.
  unfold white, is_whitespace. cbn [In]. split; intro H.
  - repeat match goal with
      | |- ?x = c \/ _ => destruct (N.eq_dec x c) as [?|?]; [left; assumption|right] end.
    lia.
  - repeat (destruct H as [<-|H]; [vm_compute; reflexivity|]). destruct H.
Qed.

Lemma ident_not_special c : is_ident c = true ->
  c <> 0 /\ c <> 40 /\ c <> 41 /\ c <> 38 /\ c <> 124 /\ c <> 33 /\ c <> 123 /\ c <> 125
  /\ is_whitespace c = false.
Proof. unfold is_ident, is_whitespace. intro H. repeat split; lia. Qed.

Lemma white_nonzero c : is_whitespace c = true -> c <> 0.
Proof. unfold is_whitespace. lia. Qed.

(** ** Lexing *)
Lemma drop_ws_app ws r : blank ws ->
  drop_ws (ws ++ r) = drop_ws r.
Proof.
  induction 1 as [|c ws Hc _ IH]; [reflexivity|].
  cbn [app drop_ws]. apply is_white_spec in Hc. pose proof (white_nonzero _ Hc).
  rewrite Hc. destruct (N.eqb_spec c 0); [contradiction|exact IH].
Qed.

Lemma drop_ws_non c r : is_whitespace c = false -> drop_ws (c :: r) = c :: r.
Proof. intro H. cbn [drop_ws]. rewrite H. destruct (c =? 0); reflexivity. Qed.

Lemma drop_ws_split l : exists ws, l = ws ++ drop_ws l /\ blank ws /\
  (drop_ws l = [] \/ exists c r, drop_ws l = c :: r /\ is_whitespace c = false).
Proof.
  induction l as [|c l (ws & E & Hb & Hd)].
  - exists []. repeat split; [constructor|now left].
  - cbn [drop_ws]. destruct (N.eqb_spec c 0) as [->|Hc].
    + exists []. repeat split; [constructor|]. right. exists 0, l. split; reflexivity.
    + destruct (is_whitespace c) eqn:Ew.
      * exists (c :: ws). cbn [app]. split; [now rewrite <- E|]. split; [|exact Hd].
        constructor; [now apply is_white_spec|exact Hb].
      * exists []. repeat split; [constructor|]. right. exists c, l. now split.
Qed.

Lemma skip_while_split p l a b : skip_while p l = (a, b) ->
  l = a ++ b /\ Forall (fun c => p c = true /\ c <> 0) a /\
  (b = [] \/ exists c r, b = c :: r /\ (c = 0 \/ p c = false)).
Proof.
  revert a b; induction l as [|c l IH]; cbn [skip_while]; intros a b H.
  - injection H as <- <-. repeat split; [constructor|now left].
  - destruct (N.eqb_spec c 0) as [->|Hc].
    + injection H as <- <-. repeat split; [constructor|]. right. exists 0, l. auto.
    + destruct (p c) eqn:Ep.
      * destruct (skip_while p l) as [a' b'] eqn:E. injection H as <- <-.
        destruct (IH _ _ eq_refl) as (E' & Hf & Hb).
        repeat split; [now rewrite E'|constructor; auto|exact Hb].
      * injection H as <- <-. repeat split; [constructor|]. right. exists c, l. auto.
Qed.

Lemma skip_while_app p a b :
  Forall (fun c => p c = true /\ c <> 0) a ->
  (b = [] \/ exists c r, b = c :: r /\ (c = 0 \/ p c = false)) ->
  skip_while p (a ++ b) = (a, b).
Proof.
  intros Ha Hb. induction Ha as [|c a [Hp Hc] _ IH]; cbn [app skip_while].
  - destruct Hb as [->|(c & r & -> & Hc)]; [reflexivity|]. cbn [skip_while].
    destruct (N.eqb_spec c 0) as [|Hn]; [reflexivity|].
    destruct Hc as [|Hc]; [contradiction|]. now rewrite Hc.
  - destruct (N.eqb_spec c 0); [contradiction|]. now rewrite Hp, IH.
Qed.

Lemma tokenize_complete ws t w rest :
  blank ws -> spells_lenient t w -> separated t rest ->
  tokenize (ws ++ w ++ rest) = LTok t rest.
Proof.
  intros Hb Hs Hsep. unfold tokenize. rewrite drop_ws_app by exact Hb.
  destruct Hs as [t w Hs|p Hhd H0 H125].
  - destruct Hs as [w Hne Hw|p Hne H0 H125| | | | | ]; try reflexivity.
    + destruct w as [|c w]; [contradiction|].
      assert (Hic : is_ident c = true) by (apply is_ident_spec; now inversion Hw).
      pose proof (ident_not_special c Hic) as (?&?&?&?&?&?&?&?&Hws).
      cbn [app]. rewrite drop_ws_non by exact Hws. cbn [cur hd].
      repeat match goal with |- context [c =? ?k] =>
        destruct (N.eqb_spec c k); [lia|] end.
      rewrite Hic. rewrite app_comm_cons. rewrite skip_while_app; [reflexivity| |].
      * eapply Forall_impl; [|exact Hw]. intros d Hd. cbv beta.
        assert (is_ident d = true) by now apply is_ident_spec.
        split; [assumption|]. now apply ident_not_special.
      * cbn in Hsep. destruct rest as [|d rest]; [now left|]. right. exists d, rest.
        split; [reflexivity|]. right. now apply is_ident_false.
    + rewrite <- !app_assoc. change (of_string "{{") with [123;123].
      change (of_string "}}") with [125;125].
      cbn [app]. rewrite drop_ws_non by reflexivity. cbn [cur hd].
      cbn [N.eqb Pos.eqb]. unfold lex_pattern. cbn [peek hd tl N.eqb Pos.eqb].
      change (is_ident 123) with false. cbn iota.
      rewrite skip_while_app; [| |].
      * cbn [cur peek hd tl N.eqb Pos.eqb]. destruct p; [contradiction|reflexivity].
      * apply Forall_forall. intros d Hd. split; [|intros ->; contradiction].
        destruct (N.eqb_spec d 125); [subst; contradiction|reflexivity].
      * right. exists 125, (125 :: rest). auto.
  - rewrite <- !app_assoc. change (of_string "{") with [123].
    change (of_string "}}") with [125;125].
    cbn [app]. rewrite drop_ws_non by reflexivity. cbn [cur hd].
    cbn [N.eqb Pos.eqb]. change (is_ident 123) with false. cbn iota.
    unfold lex_pattern.
    assert (Hpk : (peek (123 :: p ++ 125 :: 125 :: rest) =? 123) = false).
    { destruct p as [|d p]; [reflexivity|]. unfold peek. cbn [app hd tl] in *.
      now apply N.eqb_neq. }
    rewrite Hpk.
    change (123 :: p ++ 125 :: 125 :: rest) with ((123 :: p) ++ 125 :: 125 :: rest).
    rewrite skip_while_app; [reflexivity| |].
    * constructor; [split; [reflexivity|discriminate]|]. apply Forall_forall. intros d Hd.
      split; [|intros ->; contradiction].
      destruct (N.eqb_spec d 125); [subst; contradiction|reflexivity].
    * right. exists 125, (125 :: rest). auto.
Qed.

Lemma hd2_split (l : str) a b : a <> 0 -> cur l = a -> peek l = b -> b <> 0 ->
  l = a :: b :: tl (tl l).
Proof.
  destruct l as [|x [|y l]]; unfold cur, peek; cbn [hd tl]; intros; subst; congruence.
Qed.
Lemma hd1_split (l : str) a : a <> 0 -> cur l = a -> l = a :: tl l.
Proof. destruct l as [|x l]; unfold cur; cbn [hd tl]; intros; subst; congruence. Qed.

Lemma lex_pattern_sound l t r : cur l = 123 -> lex_pattern l = LTok t r ->
  exists w, l = w ++ r /\ spells_lenient t w /\ separated t r /\ ~ In 0 w.
Proof.
  intros Hc. unfold lex_pattern.
  destruct (peek l =? 123) eqn:Ep.
  - destruct (skip_while _ (tl (tl l))) as [body l2] eqn:Es.
    destruct (cur l2 =? 125) eqn:E1; [|discriminate].
    destruct (peek l2 =? 125) eqn:E2; [|destruct (negb _); discriminate].
    destruct body as [|b0 body']; [discriminate|]. intros [= <- <-].
    apply N.eqb_eq in Ep, E1, E2.
    pose proof (hd2_split l 123 123 ltac:(lia) Hc Ep ltac:(lia)) as El.
    pose proof (hd2_split l2 125 125 ltac:(lia) E1 E2 ltac:(lia)) as El2.
    apply skip_while_split in Es as (Es & Hf & _).
    set (body := b0 :: body') in *.
    assert (Hn0 : ~ In 0 body).
    { rewrite Forall_forall in Hf. intro Hin. destruct (Hf _ Hin); congruence. }
    exists (of_string "{{" ++ body ++ of_string "}}").
    split; [|split; [|split]].
    + change (of_string "{{") with [123;123]. change (of_string "}}") with [125;125].
      rewrite <- !app_assoc. cbn [app]. rewrite El at 1. do 2 f_equal.
      rewrite Es. f_equal. now rewrite El2 at 1.
    + apply sl_strict. constructor; [discriminate|exact Hn0|].
      rewrite Forall_forall in Hf. intro Hin. destruct (Hf _ Hin) as [H _]. discriminate H.
    + exact I.
    + rewrite !in_app_iff. intros [H|[H|H]]; [|contradiction|];
        cbn in H; intuition discriminate.
  - destruct (skip_while _ l) as [body l2] eqn:Es.
    destruct (cur l2 =? 125) eqn:E1; [|discriminate].
    destruct (peek l2 =? 125) eqn:E2; [|destruct (negb _); discriminate].
    destruct body as [|b0 body']; [discriminate|]. intros [= <- <-].
    apply N.eqb_eq in E1, E2. apply N.eqb_neq in Ep.
    pose proof (hd1_split l 123 ltac:(lia) Hc) as El.
    pose proof (hd2_split l2 125 125 ltac:(lia) E1 E2 ltac:(lia)) as El2.
    apply skip_while_split in Es as (Es & Hf & _).
    assert (Hb0 : b0 = 123) by (rewrite El in Es; now injection Es). subst b0.
    assert (Hn0 : ~ In 0 (123 :: body')).
    { rewrite Forall_forall in Hf. intro Hin. destruct (Hf _ Hin); congruence. }
    exists (of_string "{" ++ body' ++ of_string "}}").
    split; [|split; [|split]].
    + change (of_string "{") with [123]. change (of_string "}}") with [125;125].
      rewrite <- !app_assoc. cbn [app]. rewrite Es. cbn [app]. do 2 f_equal.
      now rewrite El2 at 1.
    + apply sl_single.
      * rewrite Es in Ep. unfold peek in Ep. cbn [app tl] in Ep.
        destruct body' as [|d b']; [cbn; discriminate|exact Ep].
      * intro; apply Hn0; now right.
      * rewrite Forall_forall in Hf. intro Hin.
        destruct (Hf 125 (or_intror Hin)) as [H _]. discriminate H.
    + exact I.
    + rewrite !in_app_iff. intros [H|[H|H]].
      * cbn in H; intuition discriminate.
      * apply Hn0; now right.
      * cbn in H; intuition discriminate.
Qed.

Lemma tokenize_sound l t r : tokenize l = LTok t r ->
  exists ws w, l = ws ++ w ++ r /\ blank ws /\ spells_lenient t w /\ separated t r
               /\ ~ In 0 (ws ++ w).
Proof.
  unfold tokenize. destruct (drop_ws_split l) as (ws & El & Hb & _).
  set (m := drop_ws l) in *. clearbody m. intro H.
  assert (Hws0 : ~ In 0 ws).
  { intro Hin. unfold blank in Hb. rewrite Forall_forall in Hb.
    apply Hb, is_white_spec in Hin. discriminate. }
  enough (exists w, m = w ++ r /\ spells_lenient t w /\ separated t r /\ ~ In 0 w)
    as (w & Em & Hs & Hsep & H0).
  { exists ws, w. rewrite El, Em. repeat split; auto. rewrite in_app_iff. intuition. }
  clear l El Hb Hws0 ws.
  destruct (cur m =? 40) eqn:E; [|clear E].
  { apply N.eqb_eq in E. injection H as <- <-. exists [40].
    split; [exact (hd1_split m 40 ltac:(lia) E)|]. repeat split.
    - apply sl_strict, sp_lparen.
    - cbn; intuition discriminate. }
  destruct (cur m =? 41) eqn:E; [|clear E].
  { apply N.eqb_eq in E. injection H as <- <-. exists [41].
    split; [exact (hd1_split m 41 ltac:(lia) E)|]. repeat split.
    - apply sl_strict, sp_rparen.
    - cbn; intuition discriminate. }
  destruct (cur m =? 38) eqn:E; [|clear E].
  { destruct (peek m =? 38) eqn:E2; [|destruct (peek m =? 0); discriminate].
    apply N.eqb_eq in E, E2. injection H as <- <-. exists [38;38].
    split; [exact (hd2_split m 38 38 ltac:(lia) E E2 ltac:(lia))|]. repeat split.
    - apply sl_strict, sp_and.
    - cbn; intuition discriminate. }
  destruct (cur m =? 124) eqn:E; [|clear E].
  { destruct (peek m =? 124) eqn:E2; [|destruct (peek m =? 0); discriminate].
    apply N.eqb_eq in E, E2. injection H as <- <-. exists [124;124].
    split; [exact (hd2_split m 124 124 ltac:(lia) E E2 ltac:(lia))|]. repeat split.
    - apply sl_strict, sp_or.
    - cbn; intuition discriminate. }
  destruct (cur m =? 33) eqn:E; [|clear E].
  { apply N.eqb_eq in E. injection H as <- <-. exists [33].
    split; [exact (hd1_split m 33 ltac:(lia) E)|]. repeat split.
    - apply sl_strict, sp_not.
    - cbn; intuition discriminate. }
  destruct (is_ident (cur m)) eqn:E; [|clear E].
  { destruct (skip_while is_ident m) as [w r'] eqn:Es. injection H as <- <-.
    assert (Hne : w <> []).
    { intros ->. destruct m as [|c m]; [discriminate E|]. cbn [cur hd] in E.
      cbn [skip_while] in Es. pose proof (ident_not_special c E) as (Hc&_).
      destruct (N.eqb_spec c 0); [contradiction|]. rewrite E in Es.
      destruct (skip_while is_ident m); discriminate. }
    apply skip_while_split in Es as (Em & Hf & Hr). exists w.
    split; [exact Em|]. split; [|split].
    - apply sl_strict. constructor; [exact Hne|]. eapply Forall_impl; [|exact Hf].
      intros d [Hd _]. now apply is_ident_spec.
    - destruct Hr as [->|(c & r & -> & [->|Hc])]; cbn; auto.
      + intro Hc. apply is_ident_spec in Hc. discriminate.
      + now apply is_ident_false.
    - rewrite Forall_forall in Hf. intro Hin. destruct (Hf _ Hin); congruence. }
  destruct (cur m =? 123) eqn:E; [|clear E].
  { apply N.eqb_eq in E. now apply lex_pattern_sound. }
  destruct (cur m =? 0); discriminate.
Qed.

Lemma tokenize_eof l : tokenize l = LEof ->
  exists ws tail, l = ws ++ tail /\ blank ws /\ (tail = [] \/ exists r, tail = 0 :: r).
Proof.
  unfold tokenize. destruct (drop_ws_split l) as (ws & El & Hb & _).
  set (m := drop_ws l) in *. clearbody m. intro H.
  exists ws, m. repeat split; auto.
  destruct m as [|c m]; [now left|]. right. exists m. f_equal. cbn [cur hd] in H.
  repeat match type of H with
  | (if ?b then _ else _) = _ => destruct b eqn:?; try discriminate
  end.
  - destruct (skip_while is_ident _); discriminate.
  - unfold lex_pattern in H.
    destruct (skip_while _ _) as [[|b0 body] l2]; repeat match type of H with
    | (if ?b then _ else _) = _ => destruct b eqn:?; try discriminate
    end.
  - now apply N.eqb_eq.
Qed.

Lemma tokenize_blank ws : blank ws -> tokenize ws = LEof.
Proof.
  intro Hb. unfold tokenize.
  replace (drop_ws ws) with (@nil N). reflexivity.
  rewrite <- (app_nil_r ws). now rewrite drop_ws_app.
Qed.

Lemma spells_lenient_nonempty t w : spells_lenient t w -> w <> [].
Proof. destruct 1 as [t w []|]; try discriminate; assumption. Qed.

Lemma lex_all_complete s ts : layout spells_lenient s ts ->
  forall n, (List.length s < n)%nat -> lex_all n s = mkStream ts SEof.
Proof.
  induction 1 as [ws Hb|ws t w rest ts Hb Hs Hsep _ IH]; intros [|n] Hn; try lia.
  - cbn [lex_all]. now rewrite tokenize_blank.
  - cbn [lex_all]. rewrite (tokenize_complete ws t w rest) by assumption.
    apply spells_lenient_nonempty in Hs. rewrite !app_length in Hn.
    rewrite IH; [reflexivity|]. destruct w; [contradiction|cbn in Hn; lia].
Qed.

Lemma separated_app_nul t rest tail :
  separated t (rest ++ tail) -> separated t rest.
Proof. destruct t; cbn; auto. destruct rest; cbn; auto. Qed.

Lemma lex_all_sound n : forall s ts, lex_all n s = mkStream ts SEof ->
  exists body tail, s = body ++ tail /\ ~ In 0 body /\ layout spells_lenient body ts
    /\ (tail = [] \/ exists r, tail = 0 :: r).
Proof.
  induction n as [|n IH]; intros s ts; cbn [lex_all]; [discriminate|].
  destruct (tokenize s) as [|t r|e] eqn:E.
  - intros [= <-]. apply tokenize_eof in E as (ws & tail & -> & Hb & Ht).
    exists ws, tail. repeat split; auto; [|now constructor].
    intro Hin. unfold blank in Hb. rewrite Forall_forall in Hb.
    apply Hb, is_white_spec in Hin. discriminate.
  - intros H. injection H as <- Hf.
    apply tokenize_sound in E as (ws & w & -> & Hb & Hs & Hsep & H0).
    destruct (lex_all n r) as [ts' f'] eqn:El. cbn in Hf. subst f'.
    destruct (IH _ _ El) as (body & tail & -> & Hn0 & Hl & Ht). cbn [toks].
    exists (ws ++ w ++ body), tail. repeat split; auto.
    + now rewrite <- !app_assoc.
    + rewrite in_app_iff in H0. rewrite !in_app_iff. intuition.
    + constructor; auto. eapply separated_app_nul; eauto.
  - discriminate.
Qed.

Lemma tokenize_shorter s t r : tokenize s = LTok t r -> (List.length r < List.length s)%nat.
Proof.
  intro H. apply tokenize_sound in H as (ws & w & -> & _ & Hs & _).
  apply spells_lenient_nonempty in Hs. rewrite !app_length.
  destruct w; [contradiction|cbn; lia].
Qed.

Lemma lex_all_fuel n : forall s, (List.length s < n)%nat -> fin (lex_all n s) <> SFuel.
Proof.
  induction n as [|n IH]; intros s Hn; [lia|]. cbn [lex_all].
  destruct (tokenize s) as [|t r|e] eqn:E; cbn [fin]; try discriminate.
  apply IH. apply tokenize_shorter in E. lia.
Qed.

Lemma lex_fuel s : fin (lex s) <> SFuel.
Proof. apply lex_all_fuel. lia. Qed.

(** ** Parser soundness *)
Lemma bind_ok {A B} (r : res A) (f : A -> res B) b :
  bind r f = Ok b -> exists a, r = Ok a /\ f a = Ok b.
Proof. destruct r; cbn; intros; try discriminate. eauto. Qed.

Lemma ready_ok s s' : ready s = Ok s' -> s' = s /\ (toks s = [] -> fin s = SEof).
Proof.
  unfold ready. destruct (toks s) as [|t ts] eqn:E; destruct (fin s) eqn:F; intros [= <-];
  split; congruence.
Qed.

Definition rdy (s : stream) : Prop := toks s = [] -> fin s = SEof.
Lemma next_ok s s' : next s = Ok s' -> s' = mkStream (tl (toks s)) (fin s) /\ rdy s'.
Proof. intro H. apply ready_ok in H as [-> H]. split; [reflexivity|exact H]. Qed.

Lemma token_eqb_op_eq a b : token_eqb_op a b = true -> a = b.
Proof. destruct a, b; cbn; congruence. Qed.

Lemma accept_ok t s b s' : accept t s = Ok (b, s') -> rdy s ->
  rdy s' /\ fin s' = fin s /\ if b then toks s = t :: toks s' else s' = s.
Proof.
  unfold accept. destruct (toks s) as [|u us] eqn:E.
  - intros [= <- <-]. auto.
  - destruct (token_eqb_op u t) eqn:Eu.
    + intros H _. apply bind_ok in H as (s1 & Hn & [= <- <-]). apply next_ok in Hn as [-> Hr].
      split; [exact Hr|].
      apply token_eqb_op_eq in Eu. rewrite E. cbn. subst. auto.
    + intros [= <- <-]. auto.
Qed.

Lemma expect_ok t s s' : expect t s = Ok s' ->
  rdy s' /\ toks s = t :: toks s' /\ fin s' = fin s.
Proof.
  unfold expect. destruct (toks s) as [|u us] eqn:E; [discriminate|].
  destruct (token_eqb_op u t) eqn:Eu; [|discriminate]. intro H.
  apply next_ok in H as [-> Hr]. split; [exact Hr|].
  apply token_eqb_op_eq in Eu. rewrite E. cbn. subst. auto.
Qed.

Definition matchable (t : token) : Prop := exists w, t = TIdent w \/ t = TPattern w.

Lemma take_parts_ok ts f : forall a b, take_parts ts f = Ok (a, b) ->
  ts = a ++ b /\ Forall matchable a /\ (rdy (mkStream ts f) -> rdy (mkStream b f)).
Proof.
  induction ts as [|t ts IH]; cbn [take_parts]; intros a b H.
  - injection H as <- <-. auto.
  - destruct t as [w|w| | | | |]; try (injection H as <- <-; now auto);
    apply bind_ok in H as (s1 & Hs1 & H); apply bind_ok in H as ([a' b'] & Ht & H);
    injection H as <- <-; destruct (IH _ _ Ht) as (-> & Hf & Hr);
    apply ready_ok in Hs1 as [_ Hs1];
    (split; [reflexivity|split; [constructor; [exists w; auto|exact Hf]|]]); auto.
Qed.

Lemma parse_match_sound valid s e s' : parse_match valid s = Ok (e, s') -> rdy s ->
  rdy s' /\ exists ts, toks s = ts ++ toks s' /\ fin s' = fin s /\ g_match valid ts e.
Proof.
  unfold parse_match. intros H Hr0. apply bind_ok in H as ([parts rest] & Ht & H).
  apply take_parts_ok in Ht as (Et & Hf & Hr).
  assert (Hr1 : rdy (mkStream rest (fin s))) by (apply Hr; exact Hr0).
  enough (s' = mkStream rest (fin s) /\ g_match valid parts e) as (-> & G).
  { split; [exact Hr1|]. exists parts. auto. }
  destruct (existsb is_pat parts) eqn:Ep.
  - destruct (valid _) eqn:Ev; [|discriminate]. injection H as <- <-. cbn [toks fin].
    split; [reflexivity|]. eapply g_pattern; eauto.
    + now apply Forall_forall.
    + apply existsb_exists in Ep as (t & Hin & Hp). destruct t; try discriminate. eauto.
  - destruct parts as [|[w|w| | | | |] [|u us]];
      try discriminate; try (destruct rest; discriminate).
    injection H as <- <-. split; [reflexivity|]. unfold ident_expr.
    destruct (str_eqb w kw_true) eqn:E1; [apply str_eqb_eq in E1 as ->; constructor|].
    destruct (str_eqb w kw_false) eqn:E2; [apply str_eqb_eq in E2 as ->; constructor|].
    apply str_eqb_neq in E1, E2. now constructor.
Qed.

Definition Snd (valid : str -> bool) (G : list token -> expr -> Prop) (s : stream)
  (r : res (expr * stream)) : Prop :=
  forall e s', r = Ok (e, s') -> rdy s ->
  rdy s' /\ exists ts, toks s = ts ++ toks s' /\ fin s' = fin s /\ G ts e.

Lemma parse_sound_all valid n :
  (forall s, Snd valid (g_or valid) s (parse_or valid n s)) /\
  (forall e0 s, Snd valid (fun ts e => g_ors valid ts e0 e) s (or_loop valid n e0 s)) /\
  (forall s, Snd valid (g_and valid) s (parse_and valid n s)) /\
  (forall e0 s, Snd valid (fun ts e => g_ands valid ts e0 e) s (and_loop valid n e0 s)) /\
  (forall s, Snd valid (g_not valid) s (parse_not valid n s)).
Proof.
  unfold Snd.
  induction n as [|n (IHor & IHol & IHand & IHal & IHnot)]; [repeat split; discriminate|].
  split; [|split; [|split; [|split]]].
  - intros s e s' H R. cbn [parse_or] in H. apply bind_ok in H as ([e1 s1] & H1 & H2).
    apply IHand in H1 as (R1 & t1 & E1 & F1 & G1); [|exact R].
    apply IHol in H2 as (R2 & t2 & E2 & F2 & G2); [|exact R1].
    split; [exact R2|].
    exists (t1 ++ t2). rewrite E1, E2, F2, F1, app_assoc. repeat split. econstructor; eauto.
  - intros e0 s e s' H R. cbn [or_loop] in H. apply bind_ok in H as ([b s1] & H1 & H2).
    apply accept_ok in H1 as (R1 & F1 & E1); [|exact R]. destruct b.
    + apply bind_ok in H2 as ([e2 s2] & H2 & H3).
      apply IHand in H2 as (R2 & t2 & E2 & F2 & G2); [|exact R1].
      apply IHol in H3 as (R3 & t3 & E3 & F3 & G3); [|exact R2].
      split; [exact R3|].
      exists (TOr :: t2 ++ t3). rewrite E1, E2, E3, F3, F2, F1. cbn [app].
      rewrite app_assoc. repeat split. econstructor; eauto.
    + injection H2 as <- <-. subst s1. split; [exact R|]. exists []. repeat split. constructor.
  - intros s e s' H R. cbn [parse_and] in H. apply bind_ok in H as ([e1 s1] & H1 & H2).
    apply IHnot in H1 as (R1 & t1 & E1 & F1 & G1); [|exact R].
    apply IHal in H2 as (R2 & t2 & E2 & F2 & G2); [|exact R1].
    split; [exact R2|].
    exists (t1 ++ t2). rewrite E1, E2, F2, F1, app_assoc. repeat split. econstructor; eauto.
  - intros e0 s e s' H R. cbn [and_loop] in H. apply bind_ok in H as ([b s1] & H1 & H2).
    apply accept_ok in H1 as (R1 & F1 & E1); [|exact R]. destruct b.
    + apply bind_ok in H2 as ([e2 s2] & H2 & H3).
      apply IHnot in H2 as (R2 & t2 & E2 & F2 & G2); [|exact R1].
      apply IHal in H3 as (R3 & t3 & E3 & F3 & G3); [|exact R2].
      split; [exact R3|].
      exists (TAnd :: t2 ++ t3). rewrite E1, E2, E3, F3, F2, F1. cbn [app].
      rewrite app_assoc. repeat split. econstructor; eauto.
    + injection H2 as <- <-. subst s1. split; [exact R|]. exists []. repeat split. constructor.
  - intros s e s' H R. cbn [parse_not] in H.
    destruct (toks s) as [|t ts] eqn:Es; [discriminate|].
    destruct t as [w|w| | | | |]; try discriminate.
    + apply parse_match_sound in H as (R1 & t1 & E1 & F1 & G1); [|exact R].
      split; [exact R1|].
      exists t1. rewrite <- Es. repeat split; auto. now apply g_not_match.
    + apply parse_match_sound in H as (R1 & t1 & E1 & F1 & G1); [|exact R].
      split; [exact R1|].
      exists t1. rewrite <- Es. repeat split; auto. now apply g_not_match.
    + apply bind_ok in H as (s1 & H1 & H). apply next_ok in H1 as (H1 & R1). subst s1.
      apply bind_ok in H as ([e2 s2] & H2 & H). injection H as <- <-.
      apply IHnot in H2 as (R2 & t2 & E2 & F2 & G2); [|exact R1].
      split; [exact R2|]. cbn [toks fin] in *. rewrite Es in E2.
      cbn [tl] in E2. exists (TNot :: t2). cbn [app]. rewrite <- E2. repeat split; auto.
      now apply g_not_not.
    + apply bind_ok in H as (s1 & H1 & H). apply next_ok in H1 as (H1 & R1). subst s1.
      apply bind_ok in H as ([e2 s2] & H2 & H).
      apply bind_ok in H as (s3 & H3 & H). injection H as <- <-.
      apply IHor in H2 as (R2 & t2 & E2 & F2 & G2); [|exact R1].
      apply expect_ok in H3 as (R3 & E3 & F3). split; [exact R3|].
      cbn [toks fin] in *. rewrite Es in E2. cbn [tl] in E2.
      exists (TLparen :: t2 ++ [TRparen]). cbn [app]. rewrite <- app_assoc. cbn [app].
      rewrite <- E3, <- E2, F3, F2. repeat split; auto. now apply g_not_paren.
Qed.

(** ** Parser completeness *)
Definition starts (P : token -> bool) (ts : list token) : bool :=
  match ts with t :: _ => P t | [] => false end.
Definition matchb (t : token) : bool :=
  match t with TIdent _ | TPattern _ => true | _ => false end.
Definition is_and (t : token) := match t with TAnd => true | _ => false end.
Definition is_or (t : token) := match t with TOr => true | _ => false end.

Lemma ready_eof ts : ready (mkStream ts SEof) = Ok (mkStream ts SEof).
Proof. now destruct ts. Qed.

Lemma take_parts_app a : Forall matchable a -> forall b, starts matchb b = false ->
  take_parts (a ++ b) SEof = Ok (a, b).
Proof.
  induction 1 as [|t a (w & Hw) _ IH]; intros b Hb; cbn [app].
  - destruct b as [|[]]; cbn in *; try reflexivity; discriminate.
  - destruct Hw as [-> | ->]; cbn [take_parts]; rewrite ready_eof; cbn [bind];
      rewrite IH by exact Hb; reflexivity.
Qed.

Lemma parse_match_complete valid ts e rest :
  g_match valid ts e -> starts matchb rest = false ->
  parse_match valid (mkStream (ts ++ rest) SEof) = Ok (e, mkStream rest SEof).
Proof.
  intros G Hr. unfold parse_match. cbn [toks fin].
  assert (Hm : Forall matchable ts).
  { destruct G as [w H1 H2| | |ts re Hm Hp Hre Hv].
    1-3: constructor; [|constructor]; eexists; left; reflexivity.
    apply Forall_forall. exact Hm. }
  rewrite take_parts_app by assumption. cbn [bind].
  destruct G as [w H1 H2| | |ts re _ Hp Hre Hv]; cbn [existsb is_pat orb].
  - unfold ident_expr. apply str_eqb_neq in H1, H2. unfold kw_true, kw_false.
    now rewrite H1, H2.
  - reflexivity.
  - reflexivity.
  - assert (Hx : existsb is_pat ts = true).
    { apply existsb_exists. destruct Hp as (p & Hp). exists (TPattern p). auto. }
    rewrite Hx, <- Hre, Hv. reflexivity.
Qed.

Scheme g_or_ind' := Minimality for g_or Sort Prop
with g_ors_ind' := Minimality for g_ors Sort Prop
with g_and_ind' := Minimality for g_and Sort Prop
with g_ands_ind' := Minimality for g_ands Sort Prop
with g_not_ind' := Minimality for g_not Sort Prop.
Combined Scheme g_mutind from g_or_ind', g_ors_ind', g_and_ind', g_ands_ind', g_not_ind'.

Notation st ts := (mkStream ts SEof).

Lemma g_not_head valid ts e : g_not valid ts e -> exists t r, ts = t :: r.
Proof.
  destruct 1 as [| |ts e G]; eauto.
  destruct G as [| | |ts re _ [p Hp] _ _]; eauto. destruct ts; [destruct Hp|eauto].
Qed.

Lemma starts_ands valid ts e0 e rest : g_ands valid ts e0 e ->
  starts matchb rest = false -> starts matchb (ts ++ rest) = false.
Proof. destruct 1; auto. Qed.

Lemma starts_ors valid ts e0 e rest : g_ors valid ts e0 e ->
  starts matchb rest = false -> starts is_and rest = false ->
  starts matchb (ts ++ rest) = false /\ starts is_and (ts ++ rest) = false.
Proof. destruct 1; auto. Qed.

Lemma accept_no t ts : (t = TAnd /\ starts is_and ts = false) \/ (t = TOr /\ starts is_or ts = false) ->
  accept t (st ts) = Ok (false, st ts).
Proof.
  unfold accept. cbn [toks]. destruct ts as [|u us]; [reflexivity|].
  intros [[-> H]|[-> H]]; destruct u; cbn in *; try discriminate; reflexivity.
Qed.

Lemma accept_yes t ts : t = TAnd \/ t = TOr -> accept t (st (t :: ts)) = Ok (true, st ts).
Proof.
  unfold accept, next. cbn [toks fin tl]. intros [-> | ->]; cbn [token_eqb_op];
  rewrite ready_eof; reflexivity.
Qed.

Lemma parse_complete_all valid :
  (forall ts e, g_or valid ts e -> forall rest n,
     starts matchb rest = false -> starts is_and rest = false -> starts is_or rest = false ->
     (3 * List.length (ts ++ rest) + 3 <= n)%nat ->
     parse_or valid n (st (ts ++ rest)) = Ok (e, st rest)) /\
  (forall ts e0 e, g_ors valid ts e0 e -> forall rest n,
     starts matchb rest = false -> starts is_and rest = false -> starts is_or rest = false ->
     (3 * List.length (ts ++ rest) + 1 <= n)%nat ->
     or_loop valid n e0 (st (ts ++ rest)) = Ok (e, st rest)) /\
  (forall ts e, g_and valid ts e -> forall rest n,
     starts matchb rest = false -> starts is_and rest = false ->
     (3 * List.length (ts ++ rest) + 2 <= n)%nat ->
     parse_and valid n (st (ts ++ rest)) = Ok (e, st rest)) /\
  (forall ts e0 e, g_ands valid ts e0 e -> forall rest n,
     starts matchb rest = false -> starts is_and rest = false ->
     (3 * List.length (ts ++ rest) + 1 <= n)%nat ->
     and_loop valid n e0 (st (ts ++ rest)) = Ok (e, st rest)) /\
  (forall ts e, g_not valid ts e -> forall rest n,
     starts matchb rest = false ->
     (3 * List.length (ts ++ rest) + 1 <= n)%nat ->
     parse_not valid n (st (ts ++ rest)) = Ok (e, st rest)).
Proof.
  apply g_mutind.
  - intros ts e r e' Ga IHa Gl IHl rest [|n] Hm Ha Ho Hn; [lia|].
    cbn [parse_or]. rewrite <- app_assoc in *. rewrite !app_length in Hn.
    destruct (starts_ors _ _ _ _ rest Gl Hm Ha) as [Hm' Ha'].
    rewrite IHa; [|assumption..|rewrite !app_length; lia]. cbn [bind].
    rewrite IHl; [reflexivity|assumption..|rewrite !app_length; lia].
  - intros e rest [|n] Hm Ha Ho Hn; [lia|]. cbn [or_loop app].
    rewrite accept_no by auto. reflexivity.
  - intros ts e2 r e e' Ga IHa Gl IHl rest [|n] Hm Ha Ho Hn; [lia|].
    cbn [or_loop app]. rewrite accept_yes by auto. cbn [bind].
    cbn [app List.length] in Hn. rewrite <- app_assoc in *. rewrite !app_length in Hn.
    destruct (starts_ors _ _ _ _ rest Gl Hm Ha) as [Hm' Ha'].
    rewrite IHa; [|assumption..|rewrite !app_length; lia]. cbn [bind].
    rewrite IHl; [reflexivity|assumption..|rewrite !app_length; lia].
  - intros ts e r e' Ga IHa Gl IHl rest [|n] Hm Ha Hn; [lia|].
    cbn [parse_and]. rewrite <- app_assoc in *. rewrite !app_length in Hn.
    pose proof (starts_ands _ _ _ _ rest Gl Hm) as Hm'.
    rewrite IHa; [|assumption..|rewrite !app_length; lia]. cbn [bind].
    rewrite IHl; [reflexivity|assumption..|rewrite !app_length; lia].
  - intros e rest [|n] Hm Ha Hn; [lia|]. cbn [and_loop app].
    rewrite accept_no by auto. reflexivity.
  - intros ts e2 r e e' Ga IHa Gl IHl rest [|n] Hm Ha Hn; [lia|].
    cbn [and_loop app]. rewrite accept_yes by auto. cbn [bind].
    cbn [app List.length] in Hn. rewrite <- app_assoc in *. rewrite !app_length in Hn.
    pose proof (starts_ands _ _ _ _ rest Gl Hm) as Hm'.
    rewrite IHa; [|assumption..|rewrite !app_length; lia]. cbn [bind].
    rewrite IHl; [reflexivity|assumption..|rewrite !app_length; lia].
  - intros ts e G IH rest [|n] Hm Hn; [lia|]. cbn [parse_not toks app].
    unfold next. cbn [toks tl fin]. rewrite ready_eof. cbn [bind].
    cbn [app List.length] in Hn. rewrite IH; [reflexivity|assumption|lia].
  - intros ts e G IH rest [|n] Hm Hn; [lia|]. cbn [parse_not toks app].
    unfold next at 1. cbn [toks tl fin]. rewrite ready_eof. cbn [bind].
    cbn [app List.length] in Hn. rewrite <- app_assoc in *. rewrite !app_length in Hn.
    cbn [app List.length] in Hn |- *.
    rewrite IH; [|reflexivity..|rewrite app_length; cbn [List.length]; lia]. cbn [bind].
    unfold expect, next. cbn [toks tl fin token_eqb_op]. rewrite ready_eof. reflexivity.
  - intros ts e G rest [|n] Hm Hn; [lia|].
    destruct (g_not_head _ _ _ (g_not_match _ _ _ G)) as (t & r & E).
    pose proof (parse_match_complete valid ts e rest G Hm) as Hpm.
    subst ts. cbn [parse_not toks app] in *.
    destruct t as [w|w| | | | |]; try exact Hpm;
    exfalso; inversion G as [| | |? ? Hall ? ? ?]; subst;
    destruct (Hall _ (or_introl eq_refl)) as (? & [?|?]); discriminate.
Qed.

Lemma parse_of_layout valid s ts e :
  layout spells_lenient s ts -> g_or valid ts e -> parse valid s = Ok e.
Proof.
  intros Hl Hg. unfold parse, lex.
  rewrite (lex_all_complete s ts Hl) by lia. rewrite ready_eof. cbn [bind toks].
  destruct (parse_complete_all valid) as (Hor & _).
  pose proof (Hor ts e Hg [] (8 * S (List.length ts))%nat eq_refl eq_refl eq_refl) as H.
  rewrite app_nil_r in H. rewrite H by lia. reflexivity.
Qed.

Lemma layout_impl (P Q : token -> str -> Prop) s ts :
  (forall t w, P t w -> Q t w) -> layout P s ts -> layout Q s ts.
Proof. intros HPQ H. induction H; constructor; auto. Qed.

Lemma parse_complete valid s ts e :
  layout spells s ts -> g_or valid ts e -> parse valid s = Ok e.
Proof.
  intros Hl. apply parse_of_layout. eapply layout_impl; [|exact Hl]. apply sl_strict.
Qed.


Lemma parse_sound_exact valid s e : parse valid s = Ok e ->
  exists body tail ts, s = body ++ tail /\ ~ In 0 body /\
    (tail = [] \/ exists r, tail = 0 :: r) /\
    layout spells_lenient body ts /\ g_or valid ts e.
Proof.
  unfold parse. intro H.
  apply bind_ok in H as (s0 & H0 & H). apply ready_ok in H0 as (-> & R0).
  apply bind_ok in H as ([e1 s1] & H1 & H). apply bind_ok in H as (u & Hu & H).
  injection H as <-. unfold expect_eof in Hu. destruct (toks s1) eqn:E1; [|discriminate].
  destruct (parse_sound_all valid (8 * S (List.length (toks (lex s))))) as (Hs & _).
  destruct (Hs _ _ _ H1 R0) as (R1 & ts & Et & Ef & G). rewrite E1, app_nil_r in Et.
  assert (Hfin : fin (lex s) = SEof) by (rewrite <- Ef; now apply R1).
  assert (El : lex s = mkStream ts SEof) by (destruct (lex s); cbn in *; congruence).
  apply lex_all_sound in El as (body & tail & -> & Hn & Hl & Ht).
  exists body, tail, ts. auto.
Qed.

(** ** Termination: enough fuel *)
Lemma parse_fuel_all valid n :
  (forall s, fin s <> SFuel -> (3 * List.length (toks s) + 3 <= n)%nat -> parse_or valid n s <> Fuel) /\
  (forall e0 s, fin s <> SFuel -> (3 * List.length (toks s) + 1 <= n)%nat -> or_loop valid n e0 s <> Fuel) /\
  (forall s, fin s <> SFuel -> (3 * List.length (toks s) + 2 <= n)%nat -> parse_and valid n s <> Fuel) /\
  (forall e0 s, fin s <> SFuel -> (3 * List.length (toks s) + 1 <= n)%nat -> and_loop valid n e0 s <> Fuel) /\
  (forall s, fin s <> SFuel -> (3 * List.length (toks s) + 1 <= n)%nat -> parse_not valid n s <> Fuel).
Proof.
  assert (Hready : forall s, fin s <> SFuel -> ready s <> Fuel).
  { intros s. unfold ready. destruct (toks s), (fin s); congruence. }
  assert (Hb : forall A B (r : res A) (f : A -> res B),
    r <> Fuel -> (forall a, r = Ok a -> f a <> Fuel) -> bind r f <> Fuel).
  { intros A B [a|e|] f H1 H2; cbn; [now apply H2|discriminate|congruence]. }
  assert (Hacc : forall t s, fin s <> SFuel -> accept t s <> Fuel).
  { intros t s H. unfold accept. destruct (toks s) as [|u us]; [discriminate|].
    destruct (token_eqb_op u t); [|discriminate]. apply Hb; [|discriminate].
    apply Hready. exact H. }
  assert (Hacc2 : forall t s b s', accept t s = Ok (b, s') ->
     fin s' = fin s /\ if b : bool then List.length (toks s) = S (List.length (toks s')) else s' = s).
  { intros t s b s'. unfold accept. destruct (toks s) as [|u us] eqn:E.
    - intros [= <- <-]. auto.
    - destruct (token_eqb_op u t).
      + intro H. apply bind_ok in H as (s1 & Hn & [= <- <-]). apply next_ok in Hn as [-> _].
        rewrite E. auto.
      + intros [= <- <-]. auto. }
  assert (Hlen : forall m,
     (forall s e s', parse_or valid m s = Ok (e, s') -> fin s' = fin s /\ (List.length (toks s') <= List.length (toks s))%nat) /\
     (forall s e s', parse_and valid m s = Ok (e, s') -> fin s' = fin s /\ (List.length (toks s') <= List.length (toks s))%nat) /\
     (forall s e s', parse_not valid m s = Ok (e, s') -> fin s' = fin s /\ (List.length (toks s') <= List.length (toks s))%nat)).
  { intro m.
    (* the non-readiness version of soundness *)
    assert (H : 
      (forall s e s', parse_or valid m s = Ok (e, s') -> fin s' = fin s /\ (List.length (toks s') <= List.length (toks s))%nat) /\
      (forall e0 s e s', or_loop valid m e0 s = Ok (e, s') -> fin s' = fin s /\ (List.length (toks s') <= List.length (toks s))%nat) /\
      (forall s e s', parse_and valid m s = Ok (e, s') -> fin s' = fin s /\ (List.length (toks s') <= List.length (toks s))%nat) /\
      (forall e0 s e s', and_loop valid m e0 s = Ok (e, s') -> fin s' = fin s /\ (List.length (toks s') <= List.length (toks s))%nat) /\
      (forall s e s', parse_not valid m s = Ok (e, s') -> fin s' = fin s /\ (List.length (toks s') <= List.length (toks s))%nat)).
    { induction m as [|m (I1 & I2 & I3 & I4 & I5)]; [repeat split; discriminate|].
      split; [|split; [|split; [|split]]].
      - intros s e s' H. cbn [parse_or] in H. apply bind_ok in H as ([e1 s1] & H1 & H2).
        apply I3 in H1 as []. apply I2 in H2 as []. split; [congruence|lia].
      - intros e0 s e s' H. cbn [or_loop] in H. apply bind_ok in H as ([b s1] & H1 & H2).
        apply Hacc2 in H1 as [F L]. destruct b.
        + apply bind_ok in H2 as ([e2 s2] & H2 & H3). apply I3 in H2 as []. apply I2 in H3 as [].
          split; [congruence|lia].
        + injection H2 as <- <-. subst. auto.
      - intros s e s' H. cbn [parse_and] in H. apply bind_ok in H as ([e1 s1] & H1 & H2).
        apply I5 in H1 as []. apply I4 in H2 as []. split; [congruence|lia].
      - intros e0 s e s' H. cbn [and_loop] in H. apply bind_ok in H as ([b s1] & H1 & H2).
        apply Hacc2 in H1 as [F L]. destruct b.
        + apply bind_ok in H2 as ([e2 s2] & H2 & H3). apply I5 in H2 as []. apply I4 in H3 as [].
          split; [congruence|lia].
        + injection H2 as <- <-. subst. auto.
      - intros s e s' H. cbn [parse_not] in H.
        destruct (toks s) as [|t ts] eqn:Es; [discriminate|].
        assert (Hpm : parse_match valid s = Ok (e, s') ->
                      fin s' = fin s /\ (List.length (toks s') <= List.length (t :: ts))%nat).
        { clear H. unfold parse_match. intro H. apply bind_ok in H as ([ps rs] & Ht & H).
          apply take_parts_ok in Ht as (Et & _).
          assert (s' = mkStream rs (fin s)) as ->.
          { destruct (existsb is_pat ps).
            - destruct (valid _); [|discriminate]. now injection H as <- <-.
            - destruct ps as [|[] []]; try discriminate; try (destruct rs; discriminate).
              now injection H as <- <-. }
          cbn [toks fin]. split; [reflexivity|]. rewrite <- Es, Et, app_length. lia. }
        destruct t as [w|w| | | | |]; try discriminate; auto.
        + apply bind_ok in H as (s1 & H1 & H). apply next_ok in H1 as [-> _].
          apply bind_ok in H as ([e2 s2] & H2 & H). injection H as <- <-.
          apply I5 in H2 as [F L]. cbn [toks fin] in *. rewrite Es in L. cbn [tl] in L.
          split; [congruence|cbn [List.length]; lia].
        + apply bind_ok in H as (s1 & H1 & H). apply next_ok in H1 as [-> _].
          apply bind_ok in H as ([e2 s2] & H2 & H).
          apply bind_ok in H as (s3 & H3 & H). injection H as <- <-.
          apply I1 in H2 as [F L]. apply expect_ok in H3 as (_ & E3 & F3).
          cbn [toks fin] in *. rewrite Es in L. cbn [tl] in L.
          rewrite E3 in L. cbn [List.length] in *. split; [congruence|lia]. }
    tauto. }
  induction n as [|n (I1 & I2 & I3 & I4 & I5)]; [repeat split; intros; lia|].
  destruct (Hlen n) as (L1 & L3 & L5).
  split; [|split; [|split; [|split]]].
  - intros s Hf Hn. cbn [parse_or]. apply Hb; [apply I3; [exact Hf|lia]|].
    intros [e1 s1] H1. apply L3 in H1 as [F L]. apply I2; [congruence|lia].
  - intros e0 s Hf Hn. cbn [or_loop]. apply Hb; [now apply Hacc|].
    intros [b s1] H1. apply Hacc2 in H1 as [F L]. destruct b; [|discriminate].
    apply Hb; [apply I3; [congruence|lia]|].
    intros [e2 s2] H2. apply L3 in H2 as [F2 L2]. apply I2; [congruence|lia].
  - intros s Hf Hn. cbn [parse_and]. apply Hb; [apply I5; [exact Hf|lia]|].
    intros [e1 s1] H1. apply L5 in H1 as [F L]. apply I4; [congruence|lia].
  - intros e0 s Hf Hn. cbn [and_loop]. apply Hb; [now apply Hacc|].
    intros [b s1] H1. apply Hacc2 in H1 as [F L]. destruct b; [|discriminate].
    apply Hb; [apply I5; [congruence|lia]|].
    intros [e2 s2] H2. apply L5 in H2 as [F2 L2]. apply I4; [congruence|lia].
  - intros s Hf Hn. cbn [parse_not].
    destruct (toks s) as [|t ts] eqn:Es; [discriminate|]. cbn [List.length] in Hn.
    assert (Hpm : parse_match valid s <> Fuel).
    { unfold parse_match. apply Hb.
      - assert (Ht : forall l, take_parts l (fin s) <> Fuel).
        { induction l as [|u l IHl]; [discriminate|].
          destruct u; try discriminate; cbn [take_parts];
          (apply Hb; [now apply Hready|]); intros ? _;
          (apply Hb; [exact IHl|]); intros [] _; discriminate. }
        apply Ht.
      - intros [ps rs] _. destruct (existsb is_pat ps).
        + destruct (valid _); discriminate.
        + destruct ps as [|[] []]; try discriminate; destruct rs; discriminate. }
    destruct t as [w|w| | | | |]; try discriminate; auto.
    + apply Hb; [now apply Hready|]. intros s1 H1. apply next_ok in H1 as [-> _].
      apply Hb; [|intros [] _; discriminate].
      apply I5; cbn [toks fin]; [exact Hf|rewrite Es; cbn [tl]; lia].
    + apply Hb; [now apply Hready|]. intros s1 H1. apply next_ok in H1 as [-> _].
      apply Hb.
      * apply I1; cbn [toks fin]; [exact Hf|rewrite Es; cbn [tl]; lia].
      * intros [e2 s2] H2. apply L1 in H2 as [F L]. cbn [fin] in F. apply Hb; [|discriminate].
        unfold expect. destruct (toks s2) as [|u us]; [discriminate|].
        destruct (token_eqb_op u TRparen); [|discriminate]. apply Hready. cbn [fin]. congruence.
Qed.

Lemma parse_terminates valid s : parse valid s <> Fuel.
Proof.
  unfold parse. pose proof (lex_fuel s) as Hf.
  destruct (ready (lex s)) as [s0|e|] eqn:Er; cbn [bind]; try discriminate.
  - apply ready_ok in Er as [-> _].
    destruct (parse_fuel_all valid (8 * S (List.length (toks (lex s))))) as (H & _).
    specialize (H (lex s) Hf ltac:(lia)).
    destruct (parse_or _ _ _) as [[e s1]|e|]; cbn [bind]; try congruence.
    unfold expect_eof. destruct (toks s1); discriminate.
  - unfold ready in Er. destruct (toks (lex s)), (fin (lex s)); congruence.
Qed.

(** ** The printer *)
Lemma g_match_tok valid e : wf valid e ->
  match e with SLit _ | SVar _ | SPat _ => g_match valid (show 2 e) (denote e) | _ => True end.
Proof.
  destruct e as [[]|x|p| | |]; cbn [wf show denote]; auto; intro H.
  - constructor.
  - constructor.
  - destruct H as (_ & _ & H1 & H2). now constructor.
  - destruct H as (_ & _ & _ & Hv). eapply g_pattern; eauto.
    + intros t [<-|[]]. eauto.
    + exists p. now left.
    + cbn [flat_map part_regex]. now rewrite app_nil_r.
Qed.

(** left-nested chains *)
Lemma g_ands_snoc valid ts e0 e ts2 e2 :
  g_ands valid ts e0 e -> g_not valid ts2 e2 -> g_ands valid (ts ++ TAnd :: ts2) e0 (And e e2).
Proof.
  intros H Hn. induction H as [e|ts e1 rest e e' G _ IH].
  - cbn [app]. rewrite <- (app_nil_r ts2). econstructor; [exact Hn|constructor].
  - cbn [app]. rewrite <- app_assoc. econstructor; eauto.
Qed.
Lemma g_ors_snoc valid ts e0 e ts2 e2 :
  g_ors valid ts e0 e -> g_and valid ts2 e2 -> g_ors valid (ts ++ TOr :: ts2) e0 (Or e e2).
Proof.
  intros H Hn. induction H as [e|ts e1 rest e e' G _ IH].
  - cbn [app]. rewrite <- (app_nil_r ts2). econstructor; [exact Hn|constructor].
  - cbn [app]. rewrite <- app_assoc. econstructor; eauto.
Qed.
Lemma g_and_of_not valid ts e : g_not valid ts e -> g_and valid ts e.
Proof. intro H. rewrite <- (app_nil_r ts). econstructor; [exact H|constructor]. Qed.
Lemma g_or_of_and valid ts e : g_and valid ts e -> g_or valid ts e.
Proof. intro H. rewrite <- (app_nil_r ts). econstructor; [exact H|constructor]. Qed.

Lemma show_grammar valid e : wf valid e ->
  g_or valid (show 0 e) (denote e) /\ g_and valid (show 1 e) (denote e)
  /\ g_not valid (show 2 e) (denote e).
Proof.
  assert (Hatom : forall ts e, g_match valid ts e ->
      g_or valid ts e /\ g_and valid ts e /\ g_not valid ts e).
  { intros ts e' H. assert (g_not valid ts e') by now apply g_not_match.
    auto using g_and_of_not, g_or_of_and. }
  induction e as [b|x|p|e IH|a IHa b IHb|a IHa b IHb]; intro Hwf.
  - apply (g_match_tok valid (SLit b)) in Hwf. destruct b; exact (Hatom _ _ Hwf).
  - apply (g_match_tok valid (SVar x)) in Hwf. exact (Hatom _ _ Hwf).
  - apply (g_match_tok valid (SPat p)) in Hwf. exact (Hatom _ _ Hwf).
  - destruct (IH Hwf) as (_ & _ & H). cbn [show denote].
    assert (g_not valid (TNot :: show 2 e) (Not (denote e))) by now apply g_not_not.
    auto using g_and_of_not, g_or_of_and.
  - destruct Hwf as [Ha Hb]. destruct (IHa Ha) as (_ & Ga & _). destruct (IHb Hb) as (_ & _ & Gb).
    cbn [show denote Nat.leb].
    assert (G1 : g_and valid (show 1 a ++ TAnd :: show 2 b) (And (denote a) (denote b))).
    { inversion Ga as [ts e0 rest e' Gn Gl]; subst. rewrite <- app_assoc.
      econstructor; [exact Gn|]. now apply g_ands_snoc. }
    repeat split; auto using g_or_of_and, g_not_paren.
  - destruct Hwf as [Ha Hb]. destruct (IHa Ha) as (Ga & _ & _). destruct (IHb Hb) as (_ & Gb & _).
    cbn [show denote Nat.leb].
    assert (G1 : g_or valid (show 0 a ++ TOr :: show 1 b) (Or (denote a) (denote b))).
    { inversion Ga as [ts e0 rest e' Gn Gl]; subst. rewrite <- app_assoc.
      econstructor; [exact Gn|]. now apply g_ors_snoc. }
    assert (G2 : g_not valid (TLparen :: (show 0 a ++ TOr :: show 1 b) ++ [TRparen]) (Or (denote a) (denote b)))
      by now apply g_not_paren.
    repeat split; auto using g_and_of_not.
Qed.

Lemma parse_show valid e s : wf valid e -> layout spells s (show 0 e) ->
  parse valid s = Ok (denote e).
Proof. intros Hwf Hl. eapply parse_complete; [exact Hl|]. now apply show_grammar. Qed.

(** ** Display *)
(** tokens of the displayed expression *)
Fixpoint dtoks (e : expr) : list token :=
  match e with
  | Lit true => [TIdent kw_true]
  | Lit false => [TIdent kw_false]
  | Var x => [TIdent x]
  | Pattern p => [TPattern p]
  | Not x => TNot :: dtoks x
  | And x y => TLparen :: (dtoks x ++ TAnd :: dtoks y) ++ [TRparen]
  | Or x y => TLparen :: (dtoks x ++ TOr :: dtoks y) ++ [TRparen]
  end.

(** what a successful parse guarantees about the result *)
Fixpoint printable (e : expr) : Prop :=
  match e with
  | Lit _ => True
  | Var x => wf_ident x
  | Pattern p => p <> [] /\ ~ In 0 p /\ ~ In 125 p
  | Not x => printable x
  | And x y | Or x y => printable x /\ printable y
  end.

Lemma escape_in c s : In c (regex_escape s) -> c = 92 \/ In c s.
Proof.
  unfold regex_escape. rewrite in_flat_map. intros (d & Hd & Hc).
  destruct (is_meta d); cbn in Hc; intuition congruence.
Qed.

Definition tok_ok (t : token) : Prop :=
  match t with
  | TIdent w => w <> [] /\ Forall ident_char w
  | TPattern p => p <> [] /\ ~ In 0 p /\ ~ In 125 p
  | _ => True
  end.

Lemma spells_lenient_tok_ok t w : spells_lenient t w -> tok_ok t.
Proof.
  destruct 1 as [t w []|p]; cbn; auto. repeat split; try discriminate;
  intros [?|?]; try discriminate; contradiction.
Qed.
Lemma layout_tok_ok s ts : layout spells_lenient s ts -> Forall tok_ok ts.
Proof. induction 1; constructor; eauto using spells_lenient_tok_ok. Qed.

Lemma ident_char_excl w c : Forall ident_char w -> In c w -> c <> 0 /\ c <> 125.
Proof.
  intros H Hin. rewrite Forall_forall in H. apply H, is_ident_spec, ident_not_special in Hin.
  tauto.
Qed.

Lemma g_match_printable valid ts e : g_match valid ts e -> Forall tok_ok ts -> printable e.
Proof.
  intros G Ho. destruct G as [w H1 H2| | |ts re Hm (p & Hp) -> Hv]; cbn; auto.
  - inversion Ho as [|? ? Hok _]; subst. cbn in Hok. now split.
  - rewrite Forall_forall in Ho.
    assert (Hx : forall c, In c (flat_map part_regex ts) -> c <> 0 /\ c <> 125).
    { intros c Hc. apply in_flat_map in Hc as (t & Ht & Hc). specialize (Ho t Ht).
      destruct (Hm t Ht) as (w & [-> | ->]); cbn [part_regex tok_ok] in *.
      - destruct Ho as [_ Ho]. apply escape_in in Hc as [-> |Hc]; [split; discriminate|].
        eapply ident_char_excl; eauto.
      - destruct Ho as (_ & H0 & H1). rewrite !in_app_iff in Hc.
        destruct Hc as [[<- | []]|[Hc|[<- | []]]]; split; try discriminate; intros ->; contradiction. }
    repeat split.
    + intro E. assert (Hin : In 40 (flat_map part_regex ts)).
      { apply in_flat_map. exists (TPattern p). split; [exact Hp|]. cbn. now left. }
      rewrite E in Hin. destruct Hin.
    + intro H. destruct (Hx _ H). congruence.
    + intro H. destruct (Hx _ H). congruence.
Qed.

Lemma grammar_printable valid :
  (forall ts e, g_or valid ts e -> Forall tok_ok ts -> printable e) /\
  (forall ts e0 e, g_ors valid ts e0 e -> Forall tok_ok ts -> printable e0 -> printable e) /\
  (forall ts e, g_and valid ts e -> Forall tok_ok ts -> printable e) /\
  (forall ts e0 e, g_ands valid ts e0 e -> Forall tok_ok ts -> printable e0 -> printable e) /\
  (forall ts e, g_not valid ts e -> Forall tok_ok ts -> printable e).
Proof.
  apply g_mutind; intros; cbn [printable] in *;
  repeat match goal with
  | H : Forall _ (_ ++ _) |- _ => apply Forall_app in H as []
  | H : Forall _ (_ :: _) |- _ => inversion H; subst; clear H
  end; auto.
  eapply g_match_printable; eauto.
Qed.

Lemma parse_printable valid s e : parse valid s = Ok e -> printable e.
Proof.
  intro H. apply parse_sound_exact in H as (body & tail & ts & _ & _ & _ & Hl & G).
  apply layout_tok_ok in Hl. destruct (grammar_printable valid) as (Hp & _). eauto.
Qed.

Lemma layout_app s1 ts1 s2 ts2 : layout spells s1 ts1 -> layout spells s2 ts2 ->
  (forall c r, s2 = c :: r -> ~ ident_char c) ->
  layout spells (s1 ++ s2) (ts1 ++ ts2).
Proof.
  intros H1 H2 Hs. induction H1 as [ws Hb|ws t w rest ts Hb Hsp Hsep _ IH]; cbn [app].
  - destruct H2 as [ws2 Hb2|ws2 t w rest ts Hb2 Hsp Hsep Hl].
    + constructor. unfold blank in *. now apply Forall_app.
    + rewrite app_assoc. constructor; auto. unfold blank in *. now apply Forall_app.
  - rewrite <- !app_assoc. constructor; auto.
    destruct t; cbn in *; auto. destruct rest as [|c rest]; cbn [app]; auto.
    destruct s2 as [|c s2]; auto. eapply Hs; eauto.
Qed.

Lemma layout_tok_cons t w rest ts : spells t w -> separated t rest -> layout spells rest ts ->
  layout spells (w ++ rest) (t :: ts).
Proof. intros. change (w ++ rest) with ([] ++ w ++ rest). constructor; auto. constructor. Qed.

Lemma not_ident_lit c : is_ident c = false -> ~ ident_char c.
Proof. now apply is_ident_false. Qed.

Lemma display_layout e : printable e -> layout spells (display e) (dtoks e).
Proof.
  induction e as [b|x|p|e IH|a IHa b IHb|a IHa b IHb]; cbn [printable display dtoks]; intro H.
  - assert (Hk : forall w, w <> [] -> Forall ident_char w -> layout spells w [TIdent w]).
    { intros w Hw Hf. rewrite <- (app_nil_r w) at 1. apply layout_tok_cons; cbn; auto.
      - now constructor.
      - constructor. constructor. }
    assert (Hf : Forall ident_char kw_true /\ Forall ident_char kw_false).
    { split; apply Forall_forall; intros c Hc; apply is_ident_spec;
      repeat (destruct Hc as [<-|Hc]; [reflexivity|]); destruct Hc. }
    destruct b; apply Hk; try discriminate; apply Hf.
  - destruct H as (Hn & Hf & _). rewrite <- (app_nil_r x) at 1.
    apply layout_tok_cons; cbn; auto; [now constructor|constructor; constructor].
  - destruct H as (Hn & H0 & H1).
    rewrite <- (app_nil_r (of_string "{{" ++ p ++ of_string "}}")).
    apply layout_tok_cons; cbn [separated]; auto; [now constructor|constructor; constructor].
  - apply layout_tok_cons; cbn [separated]; auto. constructor.
  - destruct H as [Ha Hb]. apply layout_tok_cons; [constructor|exact I|].
    rewrite (app_assoc (of_string " && ")), !app_assoc, <- (app_assoc (display a)).
    apply layout_app; [|rewrite <- (app_nil_r (of_string ")")); apply layout_tok_cons;
        [constructor|exact I|constructor; constructor]|].
    + apply layout_app; [now apply IHa| |].
      * change (of_string " && ") with ([32] ++ [38;38] ++ [32]). rewrite <- !app_assoc.
        constructor; [repeat constructor; apply is_white_spec; reflexivity|constructor|exact I|].
        replace ([32] ++ display b) with ([32] ++ display b) by reflexivity.
        change (dtoks b) with ([] ++ dtoks b).
        assert (Hl := IHb Hb).
        inversion Hl as [ws Hbl E|ws t w rest ts Hbl Hsp Hsep Hr E1 E2]; subst.
        -- exfalso. destruct b as [[]| | | | |]; discriminate.
        -- cbn [app]. change (32 :: ws ++ w ++ rest) with ((32 :: ws) ++ w ++ rest).
           constructor; auto. constructor; [apply is_white_spec; reflexivity|exact Hbl].
      * intros c r E. injection E as <- _. now apply not_ident_lit.
    + intros c r E. injection E as <- _. now apply not_ident_lit.
  - destruct H as [Ha Hb]. apply layout_tok_cons; [constructor|exact I|].
    rewrite (app_assoc (of_string " || ")), !app_assoc, <- (app_assoc (display a)).
    apply layout_app; [|rewrite <- (app_nil_r (of_string ")")); apply layout_tok_cons;
        [constructor|exact I|constructor; constructor]|].
    + apply layout_app; [now apply IHa| |].
      * change (of_string " || ") with ([32] ++ [124;124] ++ [32]). rewrite <- !app_assoc.
        constructor; [repeat constructor; apply is_white_spec; reflexivity|constructor|exact I|].
        change (dtoks b) with ([] ++ dtoks b).
        assert (Hl := IHb Hb).
        inversion Hl as [ws Hbl E|ws t w rest ts Hbl Hsp Hsep Hr E1 E2]; subst.
        -- exfalso. destruct b as [[]| | | | |]; discriminate.
        -- cbn [app]. change (32 :: ws ++ w ++ rest) with ((32 :: ws) ++ w ++ rest).
           constructor; auto. constructor; [apply is_white_spec; reflexivity|exact Hbl].
      * intros c r E. injection E as <- _. now apply not_ident_lit.
    + intros c r E. injection E as <- _. now apply not_ident_lit.
Qed.

Lemma dtoks_grammar valid e : printable e ->
  (forall p, In p (patterns e) -> valid (of_string "(" ++ p ++ of_string ")") = true) ->
  g_not valid (dtoks e) (regroup e).
Proof.
  induction e as [b|x|p|e IH|a IHa b IHb|a IHa b IHb]; cbn [printable patterns dtoks regroup];
    intros Hp Hv.
  - apply g_not_match. destruct b; constructor.
  - apply g_not_match. destruct Hp as (_ & _ & H1 & H2). now constructor.
  - apply g_not_match. eapply g_pattern.
    + intros t [<-|[]]. eauto.
    + exists p. now left.
    + cbn [flat_map part_regex]. now rewrite app_nil_r.
    + apply Hv. now left.
  - apply g_not_not. auto.
  - destruct Hp. apply g_not_paren, g_or_of_and.
    econstructor; [apply IHa; auto; intros; apply Hv, in_app_iff; auto|].
    rewrite <- (app_nil_r (dtoks b)). econstructor; [|constructor].
    apply IHb; auto; intros; apply Hv, in_app_iff; auto.
  - destruct Hp. apply g_not_paren.
    econstructor; [apply g_and_of_not, IHa; auto; intros; apply Hv, in_app_iff; auto|].
    rewrite <- (app_nil_r (dtoks b)). econstructor; [|constructor].
    apply g_and_of_not, IHb; auto; intros; apply Hv, in_app_iff; auto.
Qed.

Lemma display_parse valid s e : parse valid s = Ok e ->
  (forall p, In p (patterns e) -> valid (of_string "(" ++ p ++ of_string ")") = true) ->
  parse valid (display e) = Ok (regroup e).
Proof.
  intros H Hv. apply parse_printable in H.
  eapply parse_complete; [now apply display_layout|].
  apply g_or_of_and, g_and_of_not. now apply dtoks_grammar.
Qed.

Lemma regroup_id e : patterns e = [] -> regroup e = e.
Proof.
  induction e as [| | |e IH|a IHa b IHb|a IHa b IHb]; cbn; intro H; try congruence.
  - now rewrite IH.
  - apply app_eq_nil in H as []. now rewrite IHa, IHb.
  - apply app_eq_nil in H as []. now rewrite IHa, IHb.
Qed.

(** ** Evaluation *)
Lemma evaluate_holds rmatch env e :
  evaluate rmatch env e = true <-> holds rmatch (fun v => In v env) e.
Proof.
  induction e as [b|x|p|e IH|a IHa b IHb|a IHa b IHb]; cbn [evaluate holds].
  - reflexivity.
  - rewrite existsb_exists. split.
    + intros (v & Hv & E). apply str_eqb_eq in E. now subst.
    + intro H. exists x. split; [exact H|apply str_eqb_refl].
  - rewrite existsb_exists. reflexivity.
  - rewrite negb_true_iff. destruct (evaluate rmatch env e).
    + split; [discriminate|]. intro H. exfalso. now apply H, IH.
    + split; [|reflexivity]. intros _ H. apply IH in H. discriminate.
  - rewrite andb_true_iff. tauto.
  - rewrite orb_true_iff. tauto.
Qed.

Lemma evaluate_regroup rmatch env e :
  (forall p v, rmatch (of_string "(" ++ p ++ of_string ")") v = rmatch p v) ->
  evaluate rmatch env (regroup e) = evaluate rmatch env e.
Proof.
  intro Hg. induction e; cbn [evaluate regroup]; try congruence.
  assert (H : forall l, existsb (fun v => rmatch (of_string "(" ++ re ++ of_string ")") v) l = existsb (fun v => rmatch re v) l).
  { induction l as [|v l IH]; [reflexivity|]. cbn [existsb]. now rewrite Hg, IH. }
  apply H.
Qed.

Lemma report_loop_spec rmatch env sel header l : header <> [] -> forall buf,
  report_loop rmatch env sel header buf l =
  let sel' := filter (fun e => Bool.eqb (evaluate rmatch env e) sel) l in
  match sel', buf with
  | [], _ => buf
  | _, [] => header ++ join (of_string ", ") (map display sel')
  | _, _ => buf ++ of_string ", " ++ join (of_string ", ") (map display sel')
  end.
Proof.
  intro Hh. induction l as [|e l IH]; intro buf; cbn [report_loop filter]; [reflexivity|].
  rewrite IH. clear IH. cbv zeta. destruct (Bool.eqb (evaluate rmatch env e) sel); [|reflexivity].
  set (f := filter _ l). clearbody f.
  destruct buf as [|c buf].
  - destruct f as [|e' f]; [reflexivity|].
    destruct (header ++ display e) eqn:E.
    + apply app_eq_nil in E as [? _]. contradiction.
    + rewrite <- E. cbn [map join]. now rewrite <- !app_assoc.
  - destruct f as [|e' f]; [cbn [map join]; now rewrite <- app_assoc|].
    cbn [app map join]. rewrite <- !app_assoc. reflexivity.
Qed.

Lemma report_spec rmatch env sel header l : header <> [] ->
  none_if_empty (report_loop rmatch env sel header [] l) =
  match filter (fun e => Bool.eqb (evaluate rmatch env e) sel) l with
  | [] => None
  | f => Some (header ++ join (of_string ", ") (map display f))
  end.
Proof.
  intro Hh. rewrite report_loop_spec by exact Hh. cbv zeta.
  destruct (filter _ l) as [|e f]; [reflexivity|].
  destruct header; [contradiction|reflexivity].
Qed.
