(** Directives are found where the specification says. *)
From Coq Require Import String.
From Verif Require Import Base Gram_Model Script_Model Parse_Model Parse_Spec.
From Verif Require BoolExpr_Model BoolExpr_Proofs Script_Proofs.
Open Scope string_scope.
Open Scope list_scope.
Notation length := List.length.
Ltac splits := repeat match goal with |- _ /\ _ => split end.
Definition strip_prefix_spec := Script_Proofs.strip_prefix_spec.

Lemma ws_b c : ws c <-> is_ws c = true.
Proof. symmetry. apply BoolExpr_Proofs.is_white_spec. Qed.
Lemma ws_not c : ~ ws c <-> is_ws c = false.
Proof. rewrite ws_b. apply not_true_iff_false. Qed.
Lemma strip_none p s : strip_prefix p s = None <-> forall r, s <> p ++ r.
Proof.
  destruct (strip_prefix p s) eqn:E; split; try easy.
  - intros H. apply strip_prefix_spec in E. now destruct (H s0).
  - intros _ r H. apply strip_prefix_spec in H. congruence.
Qed.
Lemma trim_start_app a x : blank a -> trim_start (a ++ x) = trim_start x.
Proof. induction 1 as [|c a W _ IH]; [reflexivity|]. cbn. apply ws_b in W. now rewrite W. Qed.
Lemma trim_start_id c x : BoolExpr_Model.is_whitespace c = false -> trim_start (c :: x) = c :: x.
Proof. intros W. cbn. now rewrite W. Qed.
Lemma trim_start_split s : exists a, s = a ++ trim_start s /\ blank a.
Proof.
  induction s as [|c s (a & E & B)]; [exists []; split; [easy|constructor]|]. cbn.
  destruct (BoolExpr_Model.is_whitespace c) eqn:W; [|exists []; split; [easy|constructor]].
  exists (c :: a). split; [cbn; congruence|]. constructor; [now apply ws_b|easy].
Qed.

(** ** Modifiers *)
Lemma mods_tail_complete m : more_modifiers m -> forall k ok c x, blank c -> (ok = false -> c = []) -> length m < k ->
  mods_tail k ok (c ++ m ++ of_string "}" ++ x) = Some x.
Proof.
  induction 1 as [|a b c' m A B C M IH]; intros k ok c x Bc O L.
  - destruct k as [|k]; [lia|]. cbn [mods_tail app]. destruct ok.
    + rewrite trim_start_app by easy. reflexivity.
    + rewrite (O eq_refl). reflexivity.
  - destruct k as [|k]; [lia|].
    assert (T : trim_start (c ++ (a ++ of_string "," ++ b ++ of_string "LITERAL" ++ c' ++ m) ++ of_string "}" ++ x) =
      of_string "," ++ b ++ of_string "LITERAL" ++ c' ++ m ++ of_string "}" ++ x).
    { rewrite trim_start_app by easy. repeat rewrite <- app_assoc. rewrite trim_start_app by easy. reflexivity. }
    cbn [mods_tail].
    assert (N : strip_prefix (of_string "}") (if ok then trim_start (c ++ (a ++ of_string "," ++ b ++ of_string "LITERAL" ++ c' ++ m) ++ of_string "}" ++ x) else c ++ (a ++ of_string "," ++ b ++ of_string "LITERAL" ++ c' ++ m) ++ of_string "}" ++ x) = None).
    { destruct ok; [rewrite T; reflexivity|]. rewrite (O eq_refl). destruct A as [|w a W A]; [reflexivity|]. cbn -[N.eqb].
      destruct (N.eqb_spec 125 w) as [<-|]; [|reflexivity]. apply ws_b in W. discriminate. }
    rewrite N, T. clear N T.
    match goal with |- match strip_prefix _ ?X with _ => _ end = _ =>
      replace (strip_prefix (of_string ",") X) with (Some (b ++ of_string "LITERAL" ++ c' ++ m ++ of_string "}" ++ x)) by reflexivity end.
    cbv iota beta.
    rewrite trim_start_app by easy.
    replace (strip_prefix (of_string "LITERAL") (trim_start (of_string "LITERAL" ++ c' ++ m ++ of_string "}" ++ x))) with (Some (c' ++ m ++ of_string "}" ++ x)) by reflexivity.
    cbv iota beta. apply IH; [easy|easy|]. rewrite !app_length in L. cbn in L. lia.
Qed.
Lemma mods_tail_sound k : forall ok s x, mods_tail k ok s = Some x ->
  exists c m, blank c /\ (ok = false -> c = []) /\ more_modifiers m /\ s = c ++ m ++ of_string "}" ++ x.
Proof.
  induction k as [|k IH]; intros ok s x H; [discriminate|]. cbn [mods_tail] in H.
  destruct (strip_prefix (of_string "}") (if ok then trim_start s else s)) as [r|] eqn:E.
  - injection H as <-. apply strip_prefix_spec in E. destruct ok.
    + destruct (trim_start_split s) as (a & Es & B). rewrite E in Es. exists a, []. splits; auto; [easy|constructor].
    + exists [], []. splits; auto; constructor.
  - destruct (strip_prefix (of_string ",") (trim_start s)) as [r|] eqn:E1; [|discriminate].
    destruct (strip_prefix (of_string "LITERAL") (trim_start r)) as [r'|] eqn:E2; [|discriminate].
    apply IH in H as (c & m & Bc & _ & M & ->). apply strip_prefix_spec in E1, E2.
    destruct (trim_start_split s) as (a & Es & B). destruct (trim_start_split r) as (b & Er & B'). rewrite E1 in Es. rewrite E2 in Er.
    exists [], (a ++ of_string "," ++ b ++ of_string "LITERAL" ++ c ++ m). splits; auto; [constructor|now constructor|].
    rewrite Es at 1. rewrite Er at 1. cbn [app]. now repeat rewrite <- app_assoc.
Qed.
Lemma mods_colon_complete b m t : modifiers b m -> mods_colon (m ++ of_string ":" ++ t) = Some (b, t).
Proof.
  intros [|a m' A M].
  - reflexivity.
  - unfold mods_colon. repeat rewrite <- app_assoc.
    replace (strip_prefix (of_string "{") (of_string "{" ++ a ++ of_string "LITERAL" ++ m' ++ of_string "}" ++ of_string ":" ++ t))
      with (Some (a ++ of_string "LITERAL" ++ m' ++ of_string "}" ++ of_string ":" ++ t)) by reflexivity.
    rewrite trim_start_app by easy.
    replace (strip_prefix (of_string "LITERAL") (trim_start (of_string "LITERAL" ++ m' ++ of_string "}" ++ of_string ":" ++ t)))
      with (Some (m' ++ of_string "}" ++ of_string ":" ++ t)) by reflexivity.
    cbv iota. rewrite (mods_tail_complete m' M _ false [] (of_string ":" ++ t)); [reflexivity|constructor|easy|].
    rewrite !app_length. cbn. lia.
Qed.
Lemma mods_colon_sound s b t : mods_colon s = Some (b, t) -> exists m, modifiers b m /\ s = m ++ of_string ":" ++ t.
Proof.
  unfold mods_colon. destruct (strip_prefix (of_string "{") s) as [r|] eqn:E.
  - destruct (strip_prefix (of_string "LITERAL") (trim_start r)) as [r'|] eqn:E2; [|discriminate].
    destruct (mods_tail (S (length r')) false r') as [r''|] eqn:E3; [|discriminate].
    destruct (strip_prefix (of_string ":") r'') as [u|] eqn:E4; [|discriminate]. intros [= <- <-].
    apply strip_prefix_spec in E, E2, E4. apply mods_tail_sound in E3 as (c & m & _ & C & M & ->). rewrite (C eq_refl) in *.
    destruct (trim_start_split r) as (a & Er & B). rewrite E2 in Er.
    exists (of_string "{" ++ a ++ of_string "LITERAL" ++ m ++ of_string "}"). split; [now constructor|].
    subst r''. rewrite E, Er. cbn [app]. now repeat (rewrite <- app_assoc; cbn [app]).
  - destruct (strip_prefix (of_string ":") s) as [u|] eqn:E4; [|discriminate]. intros [= <- <-].
    apply strip_prefix_spec in E4. exists []. split; [constructor|exact E4].
Qed.

(** ** Keywords *)
Definition at_all (cfg : config) (s : str) : option (found * str) :=
  match comment_at cfg s with
  | Some x => Some x
  | None => first_some (fun sfx => suffix_at cfg sfx s) suffixes
  end.

Lemma first_some_some {A B} (f : A -> option B) l y : first_some f l = Some y -> exists x, In x l /\ f x = Some y.
Proof.
  induction l as [|x l IH]; [discriminate|]. cbn. destruct (f x) eqn:E.
  - intros [= <-]. eauto.
  - intros H. destruct (IH H) as (z & I & F). eauto.
Qed.
Lemma first_some_none {A B} (f : A -> option B) l : first_some f l = None <-> forall x, In x l -> f x = None.
Proof.
  induction l as [|x l IH]; cbn; [easy|]. destruct (f x) eqn:E; split; try easy.
  - intros H. specialize (H x (or_introl eq_refl)). congruence.
  - intros H y [<-|I]; [easy|]. now apply IH.
  - intros H. apply IH. auto.
Qed.

Lemma to_eol_spec s : exists t u, to_eol s = (t, u) /\ s = t ++ u /\ ~ In 10%N t /\ eol u.
Proof.
  induction s as [|c s (t & u & E & -> & N & O)]; [exists [], []; splits; auto; now left|]. cbn [to_eol].
  destruct (N.eqb_spec c 10) as [->|C].
  - eexists [], _. splits; auto. right. eauto.
  - rewrite E. exists (c :: t), u. splits; auto. intros [X|X]; auto.
Qed.
Lemma to_eol_app t u : ~ In 10%N t -> eol u -> to_eol (t ++ u) = (t, u).
Proof.
  intros N O. induction t as [|c t IH].
  - destruct O as [->|(r & ->)]; reflexivity.
  - cbn [app to_eol]. destruct (N.eqb_spec c 10) as [->|C]; [exfalso; apply N; now left|].
    rewrite IH; [reflexivity|]. intros X. apply N. now right.
Qed.
Lemma span_spec p s : exists a b, span p s = (a, b) /\ s = a ++ b /\ Forall (fun c => p c = true) a /\ match b with c :: _ => p c = false | [] => True end.
Proof.
  induction s as [|c s (a & b & E & -> & F & O)]; [exists [], []; splits; auto|]. cbn [span].
  destruct (p c) eqn:P.
  - rewrite E. exists (c :: a), b. splits; auto.
  - eexists [], _. splits; auto.
Qed.
Lemma span_app p a b : Forall (fun c => p c = true) a -> match b with c :: _ => p c = false | [] => True end -> span p (a ++ b) = (a, b).
Proof.
  intros F O. induction F as [|c a P _ IH]; cbn [app span].
  - destruct b as [|c b]; [reflexivity|]. cbn. now rewrite O.
  - now rewrite P, IH.
Qed.
Lemma dec_digit c : Num_Model.is_dec c = true <-> digit c.
Proof. unfold Num_Model.is_dec, digit. rewrite andb_true_iff, !N.leb_le. lia. Qed.

Lemma suffixes_spec k s : suffix_of k = Some s -> In (Some k, s) suffixes.
Proof. destruct k; cbn; intros [= <-]; auto 10. Qed.
Lemma suffixes_inv k s : In (Some k, s) suffixes -> suffix_of k = Some s.
Proof. cbn. intros H. repeat (destruct H as [H|H]; [inversion H; subst; reflexivity|]). easy. Qed.
Lemma suffixes_count s : In (None, s) suffixes -> s = of_string "-COUNT-".
Proof. cbn. intros H. repeat (destruct H as [H|H]; [now inversion H|]). easy. Qed.

Lemma good_checks cfg : good_config cfg -> checks_of cfg = check_prefixes cfg.
Proof. intros (N & _). unfold checks_of. now destruct (check_prefixes cfg). Qed.
Lemma good_comments cfg : good_config cfg -> comments_of cfg = comment_prefixes cfg.
Proof. intros (_ & N & _). unfold comments_of. now destruct (comment_prefixes cfg). Qed.

Lemma at_sound cfg s f r : good_config cfg -> at_all cfg s = Some (f, r) -> heads cfg s f r.
Proof.
  intros G. unfold at_all. destruct (comment_at cfg s) as [x|] eqn:E.
  - intros [= ->]. apply first_some_some in E as (p & I & E).
    destruct (strip_prefix (p ++ of_string ":") s) as [q|] eqn:E1; [|discriminate]. apply strip_prefix_spec in E1 as ->.
    destruct (to_eol_spec q) as (t & u & E2 & -> & N & O). rewrite E2 in E. injection E as <- <-.
    rewrite <- app_assoc. constructor; auto. now rewrite <- good_comments.
  - intros H. apply first_some_some in H as ([k sfx] & I & H). apply first_some_some in H as (p & Ip & H). cbn [fst snd] in H.
    rewrite good_checks in Ip by easy.
    destruct (strip_prefix (p ++ sfx) s) as [q|] eqn:E1; [|discriminate]. apply strip_prefix_spec in E1 as ->. destruct k as [k|].
    + destruct (mods_colon q) as [[b t]|] eqn:E2; [|discriminate]. injection H as <- <-.
      apply mods_colon_sound in E2 as (m & M & ->). apply hd_check; [|easy]. apply kw_kind; [easy|]. now apply suffixes_inv.
    + destruct (span_spec Num_Model.is_dec q) as (ds & q' & E2 & -> & F & _). rewrite E2 in H.
      assert (D : ds <> []) by (intros ->; discriminate).
      assert (H' : option_map (fun m => (FCheck p (ShCount ds) (fst m), snd m)) (mods_colon q') = Some (f, r)) by now destruct ds.
      destruct (mods_colon q') as [[b t]|] eqn:E3; [|discriminate]. injection H' as <- <-.
      apply mods_colon_sound in E3 as (m & M & ->). apply suffixes_count in I as ->.
      replace ((p ++ of_string "-COUNT-") ++ ds ++ m ++ of_string ":" ++ t) with ((p ++ of_string "-COUNT-" ++ ds) ++ m ++ of_string ":" ++ t)
        by now rewrite <- !app_assoc.
      apply hd_check; [|easy]. constructor; auto. eapply Forall_impl; [|exact F]. intros c. apply dec_digit.
Qed.

Definition stop_char (c : N) : Prop := c = 58%N \/ c = 123%N.
Lemma digit_plain c : digit c -> prefix_char c.
Proof. unfold digit, prefix_char. intros D. splits; try lia. rewrite ws_not. unfold BoolExpr_Model.is_whitespace. lia. Qed.
Lemma keyword_plain cfg f w : good_config cfg -> keyword cfg f w -> w <> [] /\ Forall prefix_char w.
Proof.
  intros (_ & _ & G & _) K. rewrite Forall_forall in G.
  destruct K as [p k s b I S|p ds b I N D]; apply G in I as [Np Fp].
  - split; [now destruct p|]. apply Forall_app. split; [easy|].
    destruct k; inversion S; cbn; repeat constructor; try lia; rewrite ws_not; reflexivity.
  - split; [now destruct p|]. apply Forall_app. split; [easy|]. apply Forall_app. split.
    + cbn; repeat constructor; try lia; rewrite ws_not; reflexivity.
    + eapply Forall_impl; [|exact D]. apply digit_plain.
Qed.
Lemma mods_head b m t : modifiers b m -> exists c r, m ++ of_string ":" ++ t = c :: r /\ stop_char c.
Proof. intros [|a m' _ _]; cbn; eexists _, _; (split; [reflexivity|]); unfold stop_char; auto. Qed.
Lemma plain_cut w w' c c' r r' : Forall prefix_char w -> Forall prefix_char w' -> stop_char c -> stop_char c' ->
  w ++ c :: r = w' ++ c' :: r' -> w = w' /\ c :: r = c' :: r'.
Proof.
  intros F. revert w'. induction F as [|x w (P1 & P2 & P3 & _) _ IH]; intros w' F' C C' E; destruct F' as [|y w' (Q1 & Q2 & Q3 & _) F'].
  - auto.
  - injection E as -> E. destruct C; subst; easy.
  - injection E as -> E. destruct C'; subst; easy.
  - injection E as -> E. apply IH in E as [-> E]; auto.
Qed.
Lemma heads_inv cfg s f r : heads cfg s f r ->
  (exists p t, In p (comment_prefixes cfg) /\ ~ In 10%N t /\ eol r /\ f = FComment t /\ s = p ++ of_string ":" ++ t ++ r) \/
  (exists p sh b w m, keyword cfg (FCheck p sh b) w /\ modifiers b m /\ f = FCheck p sh b /\ s = w ++ m ++ of_string ":" ++ r).
Proof. intros [p t u I N O|p sh b w m t K M]; [left; exists p, t|right; exists p, sh, b, w, m]; splits; auto. Qed.
(** a text begins with a directive in one way only *)
Lemma heads_unique cfg s f r f' r' : good_config cfg -> unambiguous cfg -> heads cfg s f r -> heads cfg s f' r' -> f = f' /\ r = r'.
Proof.
  intros G (U1 & U2) H H'.
  assert (Gc : forall p, In p (comment_prefixes cfg) -> p <> [] /\ Forall prefix_char p).
  { destruct G as (_ & _ & _ & G). rewrite Forall_forall in G. intros p I. apply G in I. exact I. }
  apply heads_inv in H as [(p & t & I & N & O & -> & ->)|(p & sh & b & w & m & K & M & -> & ->)];
  apply heads_inv in H' as [(p' & t' & I' & N' & O' & -> & E1)|(p' & sh' & b' & w' & m' & K' & M' & -> & E1)].
  - destruct (plain_cut p p' 58%N 58%N (t ++ r) (t' ++ r')) as [-> E]; [now apply Gc|now apply Gc|now left|now left|exact E1|].
    injection E as E. pose proof (to_eol_app t r N O) as X. rewrite E, to_eol_app in X by easy. now injection X as -> ->.
  - destruct (mods_head b' m' r' M') as (c & q & E & C). rewrite E in E1.
    destruct (plain_cut w' p c 58%N q (t ++ r)) as [-> _]; [now apply (keyword_plain cfg) in K'|now apply Gc|easy|now left|symmetry; exact E1|].
    now destruct (U2 p (FCheck p' sh' b')).
  - destruct (mods_head b m r M) as (c & q & E & C). rewrite E in E1.
    destruct (plain_cut w p' c 58%N q (t' ++ r')) as [-> _]; [now apply (keyword_plain cfg) in K|now apply Gc|easy|now left|exact E1|].
    now destruct (U2 p' (FCheck p sh b)).
  - destruct (mods_head b m r M) as (c & q & E & C). destruct (mods_head b' m' r' M') as (c' & q' & E' & C').
    rewrite E, E' in E1. destruct (plain_cut w' w c' c q' q) as [-> X]; [now apply (keyword_plain cfg) in K'|now apply (keyword_plain cfg) in K|easy|easy|symmetry; exact E1|].
    rewrite <- E, <- E' in X. pose proof (mods_colon_complete b m r M) as Y. rewrite <- X, mods_colon_complete with (b := b') in Y by easy.
    injection Y as -> ->. destruct (U1 _ _ _ _ _ _ _ K K') as [-> ->]. auto.
Qed.
Lemma at_some cfg s f r : good_config cfg -> heads cfg s f r -> exists y, at_all cfg s = Some y.
Proof.
  intros G H. destruct (at_all cfg s) eqn:E; [eauto|]. exfalso. unfold at_all in E.
  destruct (comment_at cfg s) eqn:E1; [discriminate|].
  destruct H as [p t u I N O|p sh b w m t K M].
  - unfold comment_at in E1. rewrite first_some_none in E1. specialize (E1 p). rewrite good_comments in E1 by easy. specialize (E1 I). cbv beta in E1.
    rewrite (proj2 (strip_prefix_spec (p ++ of_string ":") _ (t ++ u))) in E1 by now rewrite <- app_assoc.
    now destruct (to_eol (t ++ u)).
  - rewrite first_some_none in E. inversion K as [p' k sfx b' I S|p' ds b' I N D]; subst.
    + specialize (E _ (suffixes_spec _ _ S)). unfold suffix_at in E. rewrite first_some_none in E. specialize (E p). rewrite good_checks in E by easy. specialize (E I).
      cbn [fst snd] in E. rewrite (proj2 (strip_prefix_spec (p ++ sfx) _ _) eq_refl) in E. now rewrite (mods_colon_complete b m t M) in E.
    + specialize (E (None, of_string "-COUNT-") (or_introl eq_refl)). unfold suffix_at in E. rewrite first_some_none in E. specialize (E p). rewrite good_checks in E by easy. specialize (E I).
      cbn [fst snd] in E. rewrite (proj2 (strip_prefix_spec (p ++ of_string "-COUNT-") _ (ds ++ m ++ of_string ":" ++ t))) in E by now rewrite <- !app_assoc.
      rewrite span_app in E.
      * destruct ds as [|d ds]; [easy|]. now rewrite (mods_colon_complete b m t M) in E.
      * eapply Forall_impl; [|exact D]. intros c. apply dec_digit.
      * destruct (mods_head b m t M) as (c & q & -> & [->| ->]); reflexivity.
Qed.
Lemma at_spec cfg s f r : good_config cfg -> unambiguous cfg -> at_all cfg s = Some (f, r) <-> heads cfg s f r.
Proof.
  intros G U. split; [now apply at_sound|]. intros H. destruct (at_some cfg s f r G H) as ([f' r'] & E).
  rewrite E. apply at_sound in E; auto. destruct (heads_unique cfg s f r f' r' G U H E) as [-> ->]. reflexivity.
Qed.
Lemma at_none cfg s : good_config cfg -> at_all cfg s = None <-> forall f r, ~ heads cfg s f r.
Proof.
  intros G. split.
  - intros E f r H. apply at_some in H as (y & H); auto. congruence.
  - intros N. destruct (at_all cfg s) as [[f r]|] eqn:E; [|easy]. apply at_sound in E; auto. now apply N in E.
Qed.
