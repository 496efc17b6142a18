(** Lemmas for C88. *)
From Coq Require Import String.
From Verif Require Import Base Cursor_Model Map_Model Script_Model Sub_Model Sub_Spec Sub_Props Config_Model Tool_Model Tool_Spec.
From Verif Require BoolExpr_Model Script_Proofs.
Notation length := List.length.
Open Scope string_scope. Open Scope list_scope. Open Scope nat_scope.
Ltac splits := repeat match goal with |- _ /\ _ => split end.

Lemma white_spec c : white c = true <-> is_white c.
Proof. unfold white, BoolExpr_Model.is_whitespace, is_white. rewrite !orb_true_iff, !andb_true_iff, !N.leb_le, !N.eqb_eq. tauto. Qed.
Lemma white_not c : white c = false <-> ~ is_white c.
Proof. rewrite <- white_spec. destruct (white c); split; congruence. Qed.

(** * Replacements *)
Lemma expand_from_plain v : forall f g r, ~ In DOLLAR v -> expand_from (length v + f) g (v ++ r) = v ++ expand_from f g r.
Proof.
  induction v as [|c v IH]; intros f g r H; cbn [length app Nat.add]; [reflexivity|]. cbn [expand_from].
  destruct (N.eqb_spec c DOLLAR) as [E|_]; [elim H; left; congruence|]. f_equal. apply IH. intros I. apply H. now right.
Qed.
Lemma expand_plain g r : ~ In DOLLAR r -> expand g r = r.
Proof.
  intros H. unfold expand. rewrite <- (app_nil_r r) at 2. replace (S (length r)) with (length r + 1) by lia. rewrite expand_from_plain by exact H. cbn. apply app_nil_r.
Qed.
Lemma letters_app a b : forallb cap_letter a = true -> (match b with [] => True | c :: _ => cap_letter c = false end) -> letters (a ++ b) = (a, b).
Proof.
  induction a as [|c a IH]; cbn [app letters forallb]; intros H K.
  - destruct b as [|c b]; [reflexivity|]. cbn [letters]. now rewrite K.
  - apply andb_true_iff in H as [-> H]. now rewrite IH.
Qed.
Lemma expand_tool b w a v : ~ In DOLLAR v -> (match v with [] => False | c :: _ => cap_letter c = false end) -> expand (tool_groups b w a) (tool_template v) = b ++ v ++ a.
Proof.
  intros H K. unfold expand, tool_template. set (g := tool_groups b w a). assert (F : find_ref (of_string "before" ++ v ++ of_string "$after") = Some (of_string "before", v ++ of_string "$after")).
  { set (X := v ++ of_string "$after"). assert (L : letters (of_string "before" ++ X) = (of_string "before", X)) by (apply letters_app; [reflexivity|]; unfold X; destruct v; [contradiction|exact K]).
    change (of_string "before" ++ X) with (98%N :: of_string "efore" ++ X) in *. unfold find_ref. replace (98 =? 123)%N with false by reflexivity. rewrite L. reflexivity. }
  replace (length (of_string "$before" ++ v ++ of_string "$after")) with (S (length v + 12)) by (rewrite !app_length; cbn; lia). remember (S (length v + 12)) as n eqn:En. change (of_string "$before" ++ v ++ of_string "$after") with (DOLLAR :: of_string "before" ++ v ++ of_string "$after").
  cbn [expand_from]. rewrite N.eqb_refl. destruct (of_string "before" ++ v ++ of_string "$after") as [|d u] eqn:Ed; [discriminate|]. assert (Dd : N.eqb d DOLLAR = false) by (injection Ed as <- _; reflexivity).
  rewrite Dd, F. replace (group_text g (of_string "before")) with b by reflexivity. f_equal.
  subst n. replace (S (length v + 12)) with (length v + 13) by lia. rewrite expand_from_plain by exact H. f_equal. cbn. apply app_nil_r.
Qed.

(** * Replacing all matches *)
Definition shrinks (k : key) : Prop := forall st s g rest, match_at k st s = Some (g, rest) -> length rest < length s.
Lemma replace_fuel k r : shrinks k -> forall f f' st s, length s < f -> length s < f' -> replace_key f k r st s = replace_key f' k r st s.
Proof.
  intros Sh. induction f as [|f IH]; intros f' st s L L'; [lia|]. destruct f' as [|f']; [lia|]. cbn [replace_key].
  destruct (match_at k st s) as [(g, rest)|] eqn:E; [apply Sh in E; now rewrite (IH f' false rest) by lia|]. destruct s as [|c t]; [reflexivity|]. cbn [length] in *. now rewrite (IH f' false t) by lia.
Qed.
Section Rep.
Context (k : key) (r : str) (Sh : shrinks k).
Definition rep (st : bool) (s : str) : bool * str := replace_key (S (length s)) k r st s.
Lemma rep_eq st s : rep st s = match match_at k st s with
  | Some (g, rest) => (true, expand g r ++ snd (rep false rest))
  | None => match s with [] => (false, []) | c :: t => let (b, t') := rep false t in (b, c :: t') end end.
Proof.
  unfold rep at 1. cbn [replace_key]. destruct (match_at k st s) as [(g, rest)|] eqn:E.
  - unfold rep. rewrite (replace_fuel k r Sh (length s) (S (length rest)) false rest); [reflexivity| |]; apply Sh in E; lia.
  - destruct s as [|c t]; reflexivity.
Qed.
Lemma rep_same st s : fst (rep st s) = false -> snd (rep st s) = s.
Proof.
  revert st. induction s as [|c t IH]; intros st; rewrite rep_eq; destruct (match_at k st _) as [(g, rest)|]; cbn [fst snd]; try discriminate; [reflexivity|].
  specialize (IH false). destruct (rep false t) as [b t']. cbn in *. intros H. now rewrite IH.
Qed.
End Rep.
Arguments rep : simpl never.
Lemma text_shrinks c t : shrinks (KText (c :: t)).
Proof.
  intros st s g rest. cbn [match_at]. destruct (strip_prefix (c :: t) s) as [x|] eqn:E; [|discriminate]. intros [= _ ->]. apply Script_Proofs.strip_prefix_spec in E as ->. rewrite app_length. cbn. lia.
Qed.
Lemma text_replaced c t r : ~ In DOLLAR r -> forall n st s, length s <= n -> replaced (c :: t) r s (snd (rep (KText (c :: t)) r st s)).
Proof.
  intros H. induction n as [|n IH]; intros st s L; rewrite (rep_eq _ _ (text_shrinks c t)); cbn [match_at].
  - destruct s; [|cbn in L; lia]. cbn. constructor.
  - destruct (strip_prefix (c :: t) s) as [x|] eqn:E; cbn [snd].
    + apply Script_Proofs.strip_prefix_spec in E as ->. rewrite expand_plain by exact H. apply rp_hit. apply IH. rewrite app_length in L. cbn in L. lia.
    + destruct s as [|d s]; [constructor|]. destruct (rep _ r false s) as [b t'] eqn:R. cbn [snd]. apply rp_miss; [intros y Y; apply Script_Proofs.strip_prefix_spec in Y; congruence|]. specialize (IH false s ltac:(cbn in L; lia)). now rewrite R in IH.
Qed.

(** * The tools *)
Definition starts (s : str) : Prop := match s with [] => True | c :: _ => white c = true end.
Definition solid (s : str) : Prop := forall c, In c s -> white c = false.
Lemma word_at_spec w : forall s x r, word_at w s = Some (x, r) -> s = x ++ r /\ length x = length w /\ Forall2 (fun cs c => In c cs) w x.
Proof.
  induction w as [|cs w IH]; intros s x r; cbn [word_at]; [intros [= <- <-]; repeat split; constructor|]. destruct s as [|c s]; [discriminate|]. destruct (existsb (N.eqb c) cs) eqn:E; [|discriminate].
  destruct (word_at w s) as [(y, z)|] eqn:W; [|discriminate]. cbn. intros [= <- <-]. destruct (IH _ _ _ W) as (-> & L & F). cbn. splits; auto. constructor; [|exact F]. apply existsb_exists in E as (d & I & Ed). apply N.eqb_eq in Ed. now subst d.
Qed.
Lemma word_at_of w : forall x r, Forall2 (fun cs c => In c cs) w x -> word_at w (x ++ r) = Some (x, r).
Proof.
  induction w as [|cs w IH]; intros x r H; inversion H as [|? c ? x' I F]; subst; [reflexivity|]. cbn [app word_at]. replace (existsb (N.eqb c) cs) with true by (symmetry; apply existsb_exists; exists c; split; [exact I|apply N.eqb_refl]). now rewrite IH.
Qed.
Section ToolRep.
Context (w : list (list N)) (v : str) (Wn : w <> []) (Ww : Forall (fun cs => Forall (fun c => white c = false) cs) w) (Vd : ~ In DOLLAR v) (Vh : match v with [] => False | c :: _ => cap_letter c = false end).
Notation R := (rep (KTool w) (tool_template v)).
(** the word is the tool's *)
Definition hits (s : str) : Prop := Forall2 (fun cs c => In c cs) w s.
Lemma hits_solid s : hits s -> solid s.
Proof using Ww.
  unfold hits. intros H c Ic. clear Wn. revert s H Ic. induction Ww as [|cs w' F1 F2 IH]; intros s H Ic; inversion H as [|? d ? s' Hd H']; subst; [destruct Ic|]. destruct Ic as [->|Ic]; [rewrite Forall_forall in F1; now apply F1|now apply (IH F2 s')].
Qed.
Lemma hits_dec s : {hits s} + {~ hits s}.
Proof using.
  clear. unfold hits. revert s. induction w as [|cs w' IH]; intros [|c s]; try (right; intros H; inversion H; fail); [left; constructor|]. destruct (in_dec N.eq_dec c cs) as [I|I]; [|right; intros H; inversion H; auto]. destruct (IH s) as [H|H]; [left; now constructor|right; intros K; inversion K; auto].
Qed.
Lemma tool_shrinks : shrinks (KTool w).
Proof using Wn Ww.
  assert (A : forall s x a r, word_after w s = Some (x, a, r) -> length r < length s).
  { intros s x a r. unfold word_after. destruct (word_at w s) as [(y, z)|] eqn:E; [|discriminate]. apply word_at_spec in E as (-> & L & _). rewrite app_length, L. destruct w as [|cs w']; [congruence|].
    destruct z as [|c z]; [intros [= <- <- <-]; cbn; lia|]. destruct (white c); [|discriminate]. intros [= <- <- <-]. cbn. lia. }
  intros st s g rest. cbn [match_at]. destruct (if st then word_after w s else None) as [((x, a), r)|] eqn:E.
  - destruct st; [|discriminate]. intros [= _ ->]. eapply A; eauto.
  - destruct s as [|c s]; [discriminate|]. destruct (white c); [|discriminate]. destruct (word_after w s) as [((x, a), r)|] eqn:E'; [|discriminate]. intros [= _ ->]. apply A in E'. cbn. lia.
Qed.
Lemma after_hit s rest : hits s -> starts rest -> word_after w (s ++ rest) = Some (s, firstn 1 rest, skipn 1 rest).
Proof using. intros H St. unfold word_after. rewrite word_at_of by exact H. destruct rest as [|c r]; [reflexivity|]. cbn in St. now rewrite St. Qed.
Lemma after_miss s rest : solid s -> ~ hits s -> starts rest -> word_after w (s ++ rest) = None.
Proof using Wn Ww.
  intros So H St. unfold word_after. destruct (word_at w (s ++ rest)) as [(x, r)|] eqn:E; [|reflexivity]. pose proof (word_at_spec _ _ _ _ E) as (Eq & _ & F). pose proof (hits_solid x F) as Sx.
  apply app_eq_app in Eq as (l & [[-> ->]|[-> ->]]).
  - destruct l as [|c l].
    + rewrite app_nil_r in *. now elim H.
    + cbn [app]. now rewrite (So c) by (apply in_app_iff; right; now left).
  - destruct l as [|c l]; [rewrite app_nil_r in F; now elim H|]. cbn in St. rewrite (Sx c) in St; [discriminate|]. apply in_app_iff. right. now left.
Qed.
(** a piece that is left as it is *)
Definition quiet (s : str) : Prop := forall rest, starts rest -> word_after w (s ++ rest) = None /\ snd (R false (s ++ rest)) = s ++ snd (R false rest).
Lemma rep_solid s : solid s -> forall rest, snd (R false (s ++ rest)) = s ++ snd (R false rest).
Proof using Wn Ww.
  induction s as [|c s IH]; intros So rest; [reflexivity|]. cbn [app]. rewrite (rep_eq _ _ tool_shrinks). cbn [match_at]. rewrite (So c (or_introl eq_refl)). specialize (IH (fun d I => So d (or_intror I)) rest). destruct (R false (s ++ rest)). cbn [fst snd app] in *. congruence.
Qed.
Lemma quiet_solid s : solid s -> ~ hits s -> quiet s.
Proof using Wn Ww. intros So H rest St. split; [now apply after_miss|now apply rep_solid]. Qed.
Lemma quiet_two a c b : solid a -> ~ hits a -> white c = true -> quiet b -> quiet (a ++ c :: b).
Proof using Wn Ww.
  intros So H Wc Q rest St. rewrite <- !app_assoc. cbn [app]. split; [apply after_miss; auto|]. rewrite rep_solid by exact So. f_equal. rewrite (rep_eq _ _ tool_shrinks). cbn [match_at]. rewrite Wc. destruct (Q rest St) as [E1 E2]. rewrite E1.
  destruct (R false (b ++ rest)). cbn [fst snd app] in *. congruence.
Qed.
Lemma rep_start s : word_after w s = None -> R true s = R false s.
Proof using Wn Ww. intros H. rewrite !(rep_eq _ _ tool_shrinks). cbn [match_at]. now rewrite H. Qed.

Definition flat (l : list (N * str)) : str := flat_map (fun x => fst x :: snd x) l.
Lemma flat_starts l : Forall (fun x => white (fst x) = true) l -> starts (flat l).
Proof using. destruct 1; cbn; auto. Qed.
Definition piece (s : str) : Prop := hits s \/ quiet s /\ ~ hits s.
Definition put (s : str) : str := if hits_dec s then v else s.
Fixpoint spaced (l : list str) : Prop := match l with a :: ((b :: _) as r) => ~ (hits a /\ hits b) /\ spaced r | _ => True end.
Lemma put_hit s : hits s -> put s = v.
Proof using. intros H. unfold put. now destruct (hits_dec s). Qed.
Lemma put_miss s : ~ hits s -> put s = s.
Proof using. intros H. unfold put. now destruct (hits_dec s). Qed.
Lemma rep_others n : forall l, length l <= n -> Forall (fun x => white (fst x) = true) l -> Forall piece (map snd l) -> spaced (map snd l) -> snd (R false (flat l)) = flat (map (fun x => (fst x, put (snd x))) l).
Proof using Wn Ww Vd Vh.
  induction n as [|n IH]; intros l L Fw Fp Sp; [destruct l; [reflexivity|cbn in L; lia]|]. destruct l as [|(c, s) l]; [reflexivity|]. inversion Fw as [|? ? Wc Fw']; inversion Fp as [|? ? Ps Fp']; subst. cbn [fst snd length] in *.
  pose proof (flat_starts l Fw') as St. unfold flat at 1. cbn [flat_map fst snd app]. fold (flat l). rewrite (rep_eq _ _ tool_shrinks). cbn [match_at]. rewrite Wc. cbn [map fst snd]. unfold flat at 3. cbn [flat_map fst snd]. fold (flat (map (fun x => (fst x, put (snd x))) l)).
  destruct Ps as [H|[Q H]].
  - rewrite after_hit by auto. rewrite put_hit by exact H. cbn [snd]. rewrite expand_tool by assumption. destruct l as [|(c2, s2) l].
    + cbn. now rewrite !app_nil_r.
    + inversion Fw' as [|? ? Wc2 Fw2]; inversion Fp' as [|? ? Ps2 Fp2]; subst. cbn [fst snd length map spaced] in *. destruct Sp as [Sp1 Sp2]. destruct Ps2 as [H2|[Q2 H2]]; [now elim Sp1|].
      unfold flat at 1 2 3. cbn [flat_map fst snd app firstn skipn]. fold (flat l). fold (flat (map (fun x => (fst x, put (snd x))) l)). rewrite put_miss by exact H2. rewrite <- !app_assoc. cbn [app].
      rewrite (proj2 (Q2 (flat l) (flat_starts l Fw2))). rewrite IH; [reflexivity|lia|exact Fw2|exact Fp2|]. destruct l; [exact I|apply Sp2].
  - destruct (Q (flat l) St) as [E1 E2]. rewrite E1, put_miss by exact H. destruct (R false (s ++ flat l)) as [bb tt'] eqn:Er. cbn [snd] in *. subst tt'. cbn [app]. rewrite IH; [reflexivity|lia|exact Fw'|exact Fp'|]. destruct l; [exact I|apply Sp].
Qed.
Lemma rep_words s l : Forall (fun x => white (fst x) = true) l -> Forall piece (s :: map snd l) -> spaced (s :: map snd l) -> snd (R true (s ++ flat l)) = put s ++ flat (map (fun x => (fst x, put (snd x))) l).
Proof using Wn Ww Vd Vh.
  intros Fw Fp Sp. inversion Fp as [|? ? Ps Fp']; subst. pose proof (flat_starts l Fw) as St. destruct Ps as [H|[Q H]].
  - rewrite (rep_eq _ _ tool_shrinks). cbn [match_at]. rewrite after_hit by auto. cbn [snd]. rewrite put_hit by exact H. rewrite expand_tool by assumption. cbn [app]. destruct l as [|(c2, s2) l].
    + cbn. now rewrite !app_nil_r.
    + inversion Fw as [|? ? Wc2 Fw2]; inversion Fp' as [|? ? Ps2 Fp2]; subst. cbn [fst snd length map spaced] in *. destruct Sp as [Sp1 Sp2]. destruct Ps2 as [H2|[Q2 H2]]; [now elim Sp1|].
      unfold flat at 1 2 3. cbn [flat_map fst snd app firstn skipn]. fold (flat l). fold (flat (map (fun x => (fst x, put (snd x))) l)). rewrite put_miss by exact H2. rewrite <- !app_assoc. cbn [app].
      rewrite (proj2 (Q2 (flat l) (flat_starts l Fw2))). rewrite (rep_others (length l)); auto. destruct l; [exact I|apply Sp2].
  - destruct (Q (flat l) St) as [E1 E2]. rewrite rep_start by exact E1. rewrite E2, put_miss by exact H. f_equal. apply (rep_others (length l)); auto. destruct l; [exact I|apply Sp].
Qed.
End ToolRep.

(** * Names *)
Definition pct : N := 37%N.
Definition mark (value : name -> option str) (t : tok) : str :=
  match t with Plain c => [c] | Escaped => MARKER | Named n => match value n with Some s => s | None => spelling n end | Lone => [pct] end.
Definition render (value : name -> option str) (ts : list tok) : str := flat_map (mark value) ts.
(** the tokens of a command in a row *)
Inductive row : list tok -> Prop :=
| r_nil : row []
| r_plain c w : ~ In c (of_string "%#") -> row w -> row (Plain c :: w)
| r_escaped w : row w -> row (Escaped :: w)
| r_named n w : row w -> row (Named n :: w)
| r_last : row [Lone]
| r_lone c w : ~ In c (of_string "sStb{") -> row (Plain c :: w) -> row (Lone :: Plain c :: w).
Lemma row_app a b : row a -> match b with [] => True | Plain c :: _ => ~ In c (of_string "sStb{") | _ => False end -> row b -> row (a ++ b).
Proof.
  intros Ra Hb Rb. induction Ra; cbn [app] in *; try (constructor; assumption); [exact Rb|]. destruct b as [|[]]; try contradiction; [constructor|]. now constructor.
Qed.
Lemma row_plain s : inert s -> row (map Plain s).
Proof. induction s as [|c s IH]; intros H; cbn [map]; constructor; [intros K; apply (H c (or_introl eq_refl)); cbn in *; tauto|]. apply IH. intros d I. apply H. now right. Qed.
Lemma word_row w : word w -> row w.
Proof. induction 1; constructor; auto. Qed.
Lemma row_tail t w : row (t :: w) -> row w.
Proof. inversion 1; subst; auto; constructor. Qed.
Definition calm (s : str) : Prop := forall c, In c s -> ~ In c (of_string "%#").
Lemma calm_pct s : calm s -> ~ In pct s.
Proof. intros H I. apply (H pct I). cbn. auto. Qed.
Lemma calm_hash s : calm s -> ~ In hash s.
Proof. intros H I. apply (H hash I). cbn. auto. Qed.
(** no match begins in a text without a percent sign *)
Lemma miss_text p v s rest out : (exists q, p = pct :: q) -> ~ In pct s -> replaced p v rest out -> replaced p v (s ++ rest) (s ++ out).
Proof.
  intros (q & ->) N H. induction s as [|c s IH]; [exact H|]. cbn [app]. apply rp_miss; [intros r E; injection E as -> _; apply N; now left|]. apply IH. intros I. apply N. now right.
Qed.
Lemma name_eq_dec (a b : name) : {a = b} + {a <> b}.
Proof. decide equality. Defined.
Lemma spelling_pct n : exists c r, spelling n = pct :: c :: r /\ In c (of_string "sStb{") /\ ~ In pct (c :: r) /\ ~ In hash (c :: r).
Proof. destruct n; do 2 eexists; (split; [reflexivity|]); splits; cbn; intuition discriminate. Qed.
Lemma spelling_apart n m rest x : n <> m -> spelling n ++ x <> spelling m ++ rest.
Proof. destruct n, m; intros D; try congruence; cbn; intros E; repeat (injection E as E); discriminate. Qed.
Definition also (value : name -> option str) (n : name) (s : str) (m : name) : option str := if name_eq_dec n m then Some s else value m.
Lemma named_stage value n s ts : row ts -> value n = None -> (forall m x, value m = Some x -> calm x) -> replaced (spelling n) s (render value ts) (render (also value n s) ts).
Proof.
  intros Rw Vn Vc. assert (Pq : exists q, spelling n = pct :: q) by (destruct (spelling_pct n) as (c & q & -> & _); eauto).
  induction Rw as [|c w Hc Rw IH|w Rw IH|m w Rw IH| |c w Hc Rw IH]; cbn [render flat_map] in *; fold (render value) in *; fold (render (also value n s)) in *.
  - constructor.
  - cbn [mark]. apply miss_text; auto. intros [->|[]]. apply Hc. cbn. auto.
  - cbn [mark]. apply miss_text; auto. cbn. intuition discriminate.
  - cbn [mark]. unfold also at 1. destruct (name_eq_dec n m) as [<-|D]; [rewrite Vn; now apply rp_hit|]. destruct (value m) as [x|] eqn:Em; [apply miss_text; auto; apply calm_pct; eauto|].
    destruct (spelling_pct m) as (c & q & Es & _ & Np & _). pose proof (spelling_apart m n) as Ap. rewrite Es in *. change ((pct :: c :: q) ++ render value w) with (pct :: (c :: q) ++ render value w). change ((pct :: c :: q) ++ render (also value n s) w) with (pct :: (c :: q) ++ render (also value n s) w). apply rp_miss; [|apply (miss_text _ _ (c :: q) (render value w) (render (also value n s) w)); auto].
    intros r E. apply (Ap r (render value w)); [congruence|]. exact E.
  - cbn. apply rp_miss; [|constructor]. intros r E. destruct (spelling_pct n) as (c & q & Es & _). rewrite Es in E. discriminate.
  - change (mark value Lone ++ (mark value (Plain c) ++ render value w)) with (pct :: c :: render value w). change (mark (also value n s) Lone ++ (mark (also value n s) (Plain c) ++ render (also value n s) w)) with (pct :: c :: render (also value n s) w).
    apply rp_miss; [|exact IH]. intros r E. destruct (spelling_pct n) as (d & q & Es & Id & _). rewrite Es in E. injection E as -> _. contradiction.
Qed.
Lemma no_double value ts : row ts -> (forall m x, value m = Some x -> calm x) -> ~ occurs PP (render value ts).
Proof.
  intros Rw Vc. change PP with [pc; pc]. assert (Calm : forall s rest, ~ In pct s -> ~ occurs [pc; pc] rest -> ~ occurs [pc; pc] (s ++ rest)).
  { intros s rest N H. induction s as [|c s IH]; [exact H|]. cbn [app]. intros O. apply occurs2_cons in O as [[-> _]|O]; [apply N; now left|]. revert O. apply IH. intros I. apply N. now right. }
  induction Rw as [|c w Hc Rw IH|w Rw IH|m w Rw IH| |c w Hc Rw IH]; cbn [render flat_map] in *; fold (render value) in *.
  - intros ([|] & ? & ?); discriminate.
  - cbn [mark]. apply Calm; auto. intros [->|[]]. apply Hc. cbn. auto.
  - apply Calm; auto. cbn. intuition discriminate.
  - cbn [mark]. destruct (value m) as [x|] eqn:Em; [apply Calm; auto; apply calm_pct; eauto|]. destruct (spelling_pct m) as (c & q & -> & _ & Np & _). change ((pct :: c :: q) ++ render value w) with (pct :: (c :: q) ++ render value w).
    intros O. apply occurs2_cons in O as [[_ (t & E)]|O]; [injection E as -> _; apply Np; now left|]. revert O. apply (Calm (c :: q) (render value w)); auto.
  - cbn. intros ([|a [|b x]] & ? & ?); discriminate.
  - change (mark value Lone ++ (mark value (Plain c) ++ render value w)) with (pct :: c :: render value w). change (mark value (Plain c) ++ render value w) with (c :: render value w) in IH. intros O. apply occurs2_cons in O as [[_ (t & E)]|O]; [|now apply IH].
    injection E as -> _. inversion Rw as [|? ? Hp _| | | |]; subst. apply Hp. cbn. auto.
Qed.
(** the doubled percent signs are marked first *)
Lemma marked_first ts : row ts -> replaced PP MARKER (flat_map written ts) (render (fun _ => None) ts).
Proof.
  intros Rw. change PP with [pct; pct]. assert (Calm : forall s rest out, ~ In pct s -> replaced [pct; pct] MARKER rest out -> replaced [pct; pct] MARKER (s ++ rest) (s ++ out)) by (intros; apply miss_text; eauto).
  induction Rw as [|c w Hc Rw IH|w Rw IH|m w Rw IH| |c w Hc Rw IH]; cbn [render flat_map] in *; fold (render (fun _ => None)) in *.
  - constructor.
  - cbn [mark written]. apply Calm; auto. intros [->|[]]. apply Hc. cbn. auto.
  - cbn [mark written]. change (of_string "%%") with [pct; pct]. now apply rp_hit.
  - cbn [mark written]. destruct (spelling_pct m) as (c & q & -> & _ & Np & _). change ((pct :: c :: q) ++ ?x) with (pct :: (c :: q) ++ x). apply rp_miss; [intros r E; injection E as -> _; apply Np; now left|]. apply (Calm (c :: q)); auto.
  - cbn. apply rp_miss; [intros r E; discriminate|constructor].
  - change (mark (fun _ => None) Lone ++ (mark (fun _ => None) (Plain c) ++ render (fun _ => None) w)) with (pct :: c :: render (fun _ => None) w). change (written Lone ++ (written (Plain c) ++ flat_map written w)) with (pct :: c :: flat_map written w).
    apply rp_miss; [|exact IH]. intros r E. injection E as -> _. inversion Rw as [|? ? Hp _| | | |]; subst. apply Hp. cbn. auto.
Qed.
Lemma unmarked_last value ts : row ts -> (forall n, calm (value n)) -> replaced MARKER (of_string "%") (render (fun n => Some (value n)) ts) (flat_map (meant value) ts).
Proof.
  intros Rw Vc. assert (Calm : forall s rest out, ~ In hash s -> replaced MARKER (of_string "%") rest out -> replaced MARKER (of_string "%") (s ++ rest) (s ++ out)).
  { intros s rest out N H. induction s as [|c s IH]; [exact H|]. cbn [app]. apply rp_miss; [intros r E; injection E as -> _; apply N; now left|]. apply IH. intros I. apply N. now right. }
  induction Rw as [|c w Hc Rw IH|w Rw IH|m w Rw IH| |c w Hc Rw IH]; cbn [render flat_map] in *; fold (render (fun n => Some (value n))) in *; cbn [mark meant] in *.
  - constructor.
  - apply Calm; auto. intros [->|[]]. apply Hc. cbn. auto.
  - now apply rp_hit.
  - apply Calm; auto. apply calm_hash. auto.
  - apply (Calm [pct] [] []); [intros [X|[]]; discriminate|constructor].
  - apply (Calm [pct]); auto. intros [X|[]]; discriminate.
Qed.
Lemma escaped_occurs ts : row ts -> ~ In Escaped ts -> render (fun _ => None) ts = flat_map written ts.
Proof.
  intros _ N. unfold render. induction ts as [|t ts IH]; [reflexivity|]. cbn [flat_map]. rewrite IH by (intros I; apply N; now right). f_equal. destruct t; try reflexivity. elim N. now left.
Qed.
