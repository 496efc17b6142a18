(** C66, C67: the patterns of a check file. *)
From Coq Require Import String.
From Verif Require Import Base Num_Model Num_Spec Num_Proofs Env_Model Gram_Model Gram_Proofs Script_Model Parse_Model Parse_Spec Parse_Proofs Parse_Lines Parse_Tokens Parse_Props.
From Verif Require Import Pat_Spec Pat_Proofs Pat_Block.
From Verif Require BoolExpr_Model BoolExpr_Proofs Script_Proofs Script_Spec Sum_Spec Sum_Props.
Open Scope string_scope.
Open Scope list_scope.
Notation length := List.length.
Ltac splits := repeat match goal with |- _ /\ _ => split end.

(** ** Helpers *)
Lemma cut_join s ps : cut s ps -> concat (map piece_text ps) = s.
Proof.
  assert (T : forall a qs, concat (map piece_text (text a ++ qs)) = a ++ concat (map piece_text qs)) by (intros [|c a] qs; reflexivity).
  induction 1 as [s N|a b t ps F R C IH|a b t ps F R C IH].
  - rewrite <- (app_nil_r (text s)), T. apply app_nil_r.
  - rewrite T. cbn [map concat piece_text]. rewrite IH. now rewrite <- !app_assoc.
  - rewrite T. cbn [map concat piece_text]. rewrite IH. now rewrite <- !app_assoc.
Qed.
Lemma cut_tight s ps : cut s ps -> tight ps.
Proof.
  assert (T : forall a x, In (Text x) (text a) -> x <> []) by (intros [|c a] x H; [easy|]; destruct H as [[= <-]|[]]; discriminate).
  induction 1 as [s N|a b t ps F R C IH|a b t ps F R C IH]; intros x I; [eauto| |];
    (apply in_app_or in I as [I|[I|I]]; [eauto|discriminate|now apply IH]).
Qed.
Lemma cut_first s ps : cut s ps -> ascii_solid s -> good_first true ps.
Proof.
  assert (T : forall a t qs, ascii_solid (a ++ t) -> (match qs with Text _ :: _ => False | _ => True end) -> good_first true (text a ++ qs)).
  { intros [|c a] t qs S0 Q; cbn; [now destruct qs as [|[] ?]|]. split; [discriminate|]. intros _ d r [= <- _]. now apply (S0 c (a ++ t)). }
  intros [s' N|a b t qs F R C|a b t qs F R C] S0.
  - rewrite <- (app_nil_r (text s')). apply (T _ []); [now rewrite app_nil_r|easy].
  - now apply (T _ _ _ S0).
  - now apply (T _ _ _ S0).
Qed.
Lemma strict_text r s : keeps true r s -> ascii_solid s -> strip_space r = s.
Proof.
  intros K _. inversion K as [| |? _ N]; subst; [discriminate|reflexivity|]. destruct s as [|c s]; [reflexivity|].
  cbn. destruct (N.eqb_spec c 32) as [->|]; [|reflexivity]. now destruct (N s).
Qed.
Lemma skip_app w s : ascii_blank w -> ascii_solid s -> skip_ascii (w ++ s) = s.
Proof.
  intros B S0. induction B as [|c w Bc B IH]; cbn [app].
  - destruct s as [|c s]; [reflexivity|]. cbn. destruct (is_ascii_ws c) eqn:E; [|reflexivity]. exfalso. apply (S0 _ _ eq_refl). now apply ascii_blank_spec.
  - cbn [skip_ascii]. rewrite (proj2 (ascii_blank_spec c)); [exact IH|]. constructor; [exact Bc|constructor].
Qed.
Definition strict (cfg : config) : bool := strict_whitespace cfg || match_full_lines cfg.
Lemma text_of cfg r s : pattern_text (strict cfg) r s -> ascii_solid s /\ lex_pattern cfg false r = P Outside true [] s.
Proof.
  intros [r' s' E K|r' s' E K S0].
  - inversion K as [w t B S0]; subst. split; [easy|]. unfold lex_pattern. fold (strict cfg). rewrite E. now rewrite skip_app.
  - split; [easy|]. unfold lex_pattern. fold (strict cfg). rewrite E in *. now rewrite (strict_text _ _ K).
Qed.
(** a pattern that is read to its end has no error in it *)
Lemma block_clean ts b r : block_tokens ts = Some (b, r) -> ts = b ++ r /\ ~ In TErr b.
Proof.
  revert b r. induction ts as [|t ts IH]; intros b r E; [easy|].
  assert (C : (t <> TErr /\ exists b' , block_tokens ts = Some (b', r) /\ b = t :: b') \/ (t = TMatchEnd /\ b = [TMatchEnd] /\ r = ts)).
  { destruct t; cbn in E; try discriminate; try (destruct (block_tokens ts) as [[b' r']|]; [|discriminate]; injection E as <- <-; left; split; [discriminate|eauto]).
    injection E as <- <-. now right. }
  destruct C as [(N & b' & E' & ->)|(-> & -> & ->)].
  - apply IH in E' as [-> I]. split; [reflexivity|]. intros [X|X]; auto.
  - split; [reflexivity|]. intros [X|[]]. discriminate.
Qed.
Lemma parts_clean n : forall ts l, no_lf ts -> parse_parts n ts = Some (l, []) -> ~ In TErr ts.
Proof.
  induction n as [|n IH]; intros ts l N E; [easy|]. cbn [parse_parts] in E.
  destruct ts as [|t ts]; [easy|]. apply no_lf_cons in N as [N1 N2].
  assert (A : forall (q : part) o, match o with Some (l0, r0) => Some (q :: l0, r0) | None => @None (list part * list token) end = Some (l, []) -> exists l0, o = Some (l0, [])).
  { intros q [[l0 r0]|]; [intros [= <- ->]; eauto|discriminate]. }
  destruct t; try discriminate; try congruence.
  - apply A in E as (l0 & E). intros [X|X]; [discriminate|]. exact (IH _ _ N2 E X).
  - destruct (block_tokens ts) as [[b r']|] eqn:B; [|discriminate]. destruct (block_clean _ _ _ B) as [-> Ib].
    destruct (parse_match _); [|discriminate]. apply A in E as (l0 & E). intros [X|X]; [discriminate|].
    apply in_app_or in X as [X|X]; [easy|]. refine (IH _ _ _ E X). intros Y. apply N2. apply in_or_app. auto.
  - destruct ts as [|t1 ts]; [discriminate|]. apply no_lf_cons in N2 as [N3 N4]. destruct t1; try discriminate.
    destruct ts as [|t2 ts]; [discriminate|]. apply no_lf_cons in N4 as [N5 N6]. destruct t2; try discriminate. apply A in E as (l0 & E).
    intros [X|[X|[X|X]]]; try discriminate. exact (IH _ _ N6 E X).
Qed.
(** the parts of a pattern *)
Lemma parts_text cfg r s qs : pattern_text (strict cfg) r s ->
  parse_parts (S (length (lex_pattern cfg false r))) (lex_pattern cfg false r) = Some (qs, []) <->
  exists ps ps', cut s ps /\ drop_blank ps ps' /\ Forall2 piece_is ps' qs.
Proof.
  intros T. apply text_of in T as [S0 ->]. destruct (lex_render (length s) s true) as [(ps & C & E)|[N (u & E)]]; [lia| |].
  - rewrite E. rewrite parts_render; [|now apply cut_tight with s|now apply cut_first with s|lia]. split.
    + intros (_ & ps' & D & F). eauto.
    + intros (ps1 & ps' & C' & D & F). rewrite (cut_unique _ _ C' _ C) in D. split; [easy|]. eauto.
  - split.
    + intros X. apply parts_clean in X; [|apply parts_no_lf]. exfalso. apply X. rewrite E. apply in_or_app. right. now left.
    + intros (ps & ps' & C & _). exfalso. now apply N in C.
Qed.
Lemma cut_blank s ps : cut s ps -> drop_blank ps [] <-> blank s.
Proof.
  intros C. split.
  - intros D. apply cut_join in C. apply drop_inv in D as [(x & B & E)|[_ E]].
    + cbn in E. subst ps. cbn in C. now rewrite app_nil_r in C; subst.
    + subst ps. cbn in C. subst s. constructor.
  - intros B. assert (C' : cut s (text s)).
    { constructor. intros a t -> O. unfold blank in B. rewrite Forall_app in B. destruct B as [_ B]. destruct O as [(r & ->)|[(r & ->) _]]; inversion B as [|? ? W _]; subst.
      - apply BoolExpr_Proofs.is_white_spec in W. discriminate.
      - apply BoolExpr_Proofs.is_white_spec in W. discriminate. }
    rewrite (cut_unique _ _ C _ C'). destruct s as [|c s]; [now apply drop_nil|]. now apply (drop_text (c :: s)); left.
Qed.
Lemma dec_value_snoc ds c : dec_value (ds ++ [c]) = (dec_value ds * 10 + (Z.of_N c - 48))%Z.
Proof. unfold dec_value. now rewrite fold_left_app. Qed.
Lemma digit_dec c d : digit_is c d -> (d < 10)%Z -> d = (Z.of_N c - 48)%Z.
Proof. intros [c' R|c' R|c' R] L; lia. Qed.
Lemma dec_value_is ds : Forall digit ds -> value_is 10 ds (dec_value ds).
Proof.
  induction ds as [|c ds IH] using rev_ind; intros F; [constructor|]. apply Forall_app in F as [F1 F2]. inversion F2 as [|? ? D _]; subst.
  rewrite dec_value_snoc. constructor; [now apply IH|now constructor|]. unfold digit in D. lia.
Qed.
Lemma value_dec_is ds n : value_is 10 ds n -> n = dec_value ds.
Proof.
  induction 1 as [|s v c d V IH D L]; [reflexivity|]. rewrite dec_value_snoc, <- IH. now rewrite (digit_dec _ _ D L).
Qed.
(** the directive of a line: its keyword and the rest *)
Definition shape_ok (sh : shape) : Prop := match sh with ShKind k => suffix_of k <> None | ShCount ds => Forall digit ds end.
Lemma parse_directive cfg p sh lit r : shape_ok sh ->
  forall cs, parse (entry cfg (FCheck p sh lit) r) = Some cs <-> exists k, kind_is sh k /\ parse (directive cfg k lit r) = Some cs.
Proof.
  intros D cs. destruct sh as [k|ds]; cbn [entry].
  - split; [intros E; exists k; split; [now constructor|easy]|]. intros (k' & K & E). now inversion K; subst.
  - pose proof (dec_value_is ds D) as V. destruct (Z.leb_spec (dec_value ds) 255) as [L|L].
    + split.
      * intros E. destruct (Z.eq_dec (dec_value ds) 0) as [Z0|Z0].
        -- rewrite Z0 in E. unfold directive in E. rewrite parse_check_eq in E. unfold parse_check in E. rewrite parse_mods_of in E. discriminate.
        -- exists (CCount (Z.to_nat (dec_value ds))). split; [|easy]. constructor; [easy|]. apply value_is_nonneg in V; [lia|now left].
      * intros (k & K & E). inversion K as [|ds' n V' R]; subst. now rewrite <- (value_dec_is _ _ V').
    + split; [discriminate|]. intros (k & K & E). inversion K as [|ds' n V' R]; subst. apply value_dec_is in V'. lia.
Qed.
Lemma kind_pos sh : ~ kind_is sh (CCount 0).
Proof. intros K. inversion K as [k N|ds n V R]; subst; [now apply N|lia]. Qed.
Lemma says_digits cfg l p sh b r : says cfg l (Some (FCheck p sh b, r)) -> shape_ok sh.
Proof.
  intros Sy. inversion Sy as [a t f r' El W H M e|]; subst.
  apply heads_inv in H as [(p' & x & I & N & O & X & _)|(p' & sh' & b' & w & m & K & M' & X & _)]; [discriminate|].
  injection X as <- <- <-. inversion K as [? k s0 ? I E|]; subst; cbn; [now rewrite E|easy].
Qed.

(** ** C66: CHECK{LITERAL} *)
(** The pattern is the text after the colon as it stands: what looks like a regular expression or a block
    is text, white space at its end belongs to it. *)
Theorem literal_directive cfg l p sh r t cs : good_config cfg -> unambiguous cfg -> allow_unused cfg = true -> plain_line cfg l ->
  says cfg l (Some (FCheck p sh true, r)) -> keeps (strict_whitespace cfg || match_full_lines cfg) r t ->
  (parse_file cfg l = Some cs <-> exists k, kind_is sh k /\ k <> CEmpty /\ cs = [mkCLine k true (PLit t)]).
Proof.
  intros G U A Pl Sy K. rewrite parse_line by auto. pose proof (says_digits _ _ _ _ _ _ Sy) as D. apply says_spec in Sy; auto.
  unfold line_tokens. rewrite Sy. rewrite parse_directive by easy.
  assert (E : lex_pattern cfg true r = [TRaw t]).
  { unfold lex_pattern. f_equal. f_equal. inversion K as [w t' E B S0|t' E|t' E N]; subst; rewrite E; [|reflexivity|].
    - rewrite trim_start_app by easy. destruct t as [|c t]; [reflexivity|]. apply trim_start_id. destruct (is_ws c) eqn:X; [|reflexivity].
      apply BoolExpr_Proofs.is_white_spec in X. exfalso. now apply (S0 _ _ eq_refl).
    - destruct t as [|c t]; [reflexivity|]. cbn. destruct (N.eqb_spec c 32) as [->|]; [|reflexivity]. now destruct (N t). }
  split; intros (k & Kk & H); exists k; (split; [easy|]).
  - unfold directive in H. rewrite parse_check_eq in H. unfold parse_check in H. rewrite (parse_mods_of true), E in H.
    destruct k as [| | | | | | |[|n]]; try discriminate; injection H as <-; (split; [discriminate|reflexivity]).
  - destruct H as [Ne ->]. unfold directive. rewrite parse_check_eq. unfold parse_check. rewrite (parse_mods_of true), E.
    destruct k as [| | | | | | |[|n]]; try reflexivity; [easy|]. now apply kind_pos in Kk.
Qed.

(** ** C67: patterns *)
Theorem pattern_directive cfg l p sh r s cs : good_config cfg -> unambiguous cfg -> allow_unused cfg = true -> plain_line cfg l ->
  says cfg l (Some (FCheck p sh false, r)) -> pattern_text (strict_whitespace cfg || match_full_lines cfg) r s ->
  (parse_file cfg l = Some cs <->
   (sh = ShKind CEmpty /\ blank s /\ cs = [mkCLine CEmpty false PEmpty]) \/
   exists k pat, kind_is sh k /\ k <> CEmpty /\ pattern s pat /\ cs = [mkCLine k false pat]).
Proof.
  intros G U A Pl Sy T. rewrite parse_line by auto. pose proof (says_digits _ _ _ _ _ _ Sy) as D. apply says_spec in Sy; auto.
  unfold line_tokens. rewrite Sy. rewrite parse_directive by easy. pose proof (fun qs => parts_text cfg r s qs T) as Q. set (ts := lex_pattern cfg false r) in *.
  assert (N : no_lf ts) by apply parts_no_lf.
  assert (X : forall k, parse (directive cfg k false r) = Some cs <->
    exists qs c, parse_parts (S (length ts)) ts = Some (qs, []) /\ parse_check k (TColon :: ts) = Some (c, []) /\ cs = [c]).
  { intros k. unfold directive. rewrite parse_check_eq. cbn [app]. split.
    - intros H. destruct (parse_check k _) as [[c r']|] eqn:E; [|discriminate].
      assert (P1 : exists qs, parse_parts (S (length ts)) ts = Some (qs, r')).
      { unfold parse_check in E. cbn [parse_mods] in E. fold ts in E. destruct (parse_parts (S (length ts)) ts) as [[qs r0]|]; [|now destruct k as [| | | | | | |[|n]]].
        destruct k as [| | | | | | |[|n]]; try discriminate; destruct qs as [|[] []]; try discriminate; injection E as _ <-; eauto. }
      destruct P1 as (qs & P1). destruct (parts_rest _ _ _ _ N P1) as [->|(u & ->)]; [|discriminate].
      injection H as <-. eauto.
    - intros (qs & c & P1 & E & ->). fold ts. now rewrite E. }
  assert (Y : forall k qs c, kind_is sh k -> parse_parts (S (length ts)) ts = Some (qs, []) ->
    parse_check k (TColon :: ts) = Some (c, []) <-> (k = CEmpty /\ qs = [] /\ c = mkCLine CEmpty false PEmpty) \/ (k <> CEmpty /\ exists pat, pattern_is qs pat /\ c = mkCLine k false pat)).
  { intros k qs c Kk E. unfold parse_check. cbn [parse_mods]. rewrite E.
    assert (Z : (match qs with [] => None | [QLit x] => Some (mkCLine k false (PLit x), []) | [QRegex x] => Some (mkCLine k false (PRegex x), [])
                | _ => Some (mkCLine k false (PParts qs), @nil token) end) = Some (c, []) <-> exists pat, pattern_is qs pat /\ c = mkCLine k false pat).
    { split.
      - destruct qs as [|q [|q' qs]]; [discriminate| |]; [destruct q|destruct q]; intros [= <-]; eexists; (split; [|reflexivity]); constructor.
      - intros (pat & H & ->). now destruct H as [x|x|m|[] q l0]. }
    destruct k as [| | | | | | |[|n]].
    1-6: refine (iff_trans Z _); split; [intros H; right; split; [discriminate|exact H]|intros [[? _]|[_ H]]; [discriminate|exact H]].
    - destruct qs as [|q qs]; split.
      + intros [= <-]. now left.
      + intros [(_ & _ & ->)|[H _]]; [reflexivity|easy].
      + discriminate.
      + intros [(_ & H & _)|[H _]]; [discriminate|easy].
    - now apply kind_pos in Kk.
    - refine (iff_trans Z _); split; [intros H; right; split; [discriminate|exact H]|intros [[? _]|[_ H]]; [discriminate|exact H]]. }
  split.
  - intros (k & Kk & H). apply X in H as (qs & c & P1 & E & ->). apply (Y k qs c Kk P1) in E as [(-> & -> & ->)|(Ne & pat & Pa & ->)].
    + left. inversion Kk; subst. splits; auto. apply Q in P1 as (ps & ps' & C & Dr & F). inversion F; subst. exact (proj1 (cut_blank _ _ C) Dr).
    + right. exists k, pat. splits; auto. apply Q in P1 as (ps & ps' & C & Dr & F). exists ps, ps', qs. now splits.
  - intros [(-> & B & ->)|(k & pat & Kk & Ne & (ps & ps' & qs & C & Dr & F & Pa) & ->)].
    + assert (KE : kind_is (ShKind CEmpty) CEmpty) by (constructor; discriminate). exists CEmpty. split; [exact KE|]. apply X. exists [], (mkCLine CEmpty false PEmpty).
      assert (P1 : parse_parts (S (length ts)) ts = Some ([], [])).
      { apply Q. destruct (text_of _ _ _ T) as [S0 E0]. destruct (lex_render (length s) s true) as [(ps & C & E)|[Nc _]]; [lia| |].
        - exists ps, []. split; [exact C|]. split; [exact (proj2 (cut_blank _ _ C) B)|constructor].
        - exfalso. apply (Nc (text s)). constructor. intros a t -> O. unfold blank in B. rewrite Forall_app in B. destruct B as [_ B].
          destruct O as [(u & ->)|[(u & ->) _]]; inversion B as [|? ? W _]; subst; apply BoolExpr_Proofs.is_white_spec in W; discriminate. }
      splits; auto. apply (Y CEmpty [] _ KE P1). now left.
    + exists k. split; [easy|]. apply X. exists qs, (mkCLine k false pat).
      assert (P1 : parse_parts (S (length ts)) ts = Some (qs, [])) by (apply Q; eauto).
      splits; auto. apply (Y k qs _ Kk P1). right. eauto.
Qed.

(** A text has one reading as a pattern, and a cut of it loses nothing. *)
Lemma piece_unique p q q' : piece_is p q -> piece_is p q' -> q = q'.
Proof.
  intros H H'. destruct H as [s|s t T|s m B]; inversion H' as [|? t' T'|? m' B']; subst; auto; f_equal.
  - apply Script_Proofs.trimmed_spec in T, T'. congruence.
  - apply block_says_iff in B as [_ B], B' as [_ B']. congruence.
Qed.
Lemma Forall2_unique {A B} (R : A -> B -> Prop) : (forall a b b', R a b -> R a b' -> b = b') -> forall l m m', Forall2 R l m -> Forall2 R l m' -> m = m'.
Proof.
  intros U l m m' F. revert m'. induction F as [|a b l m h F IH]; intros m' F'; inversion F'; subst; [easy|]. f_equal; eauto.
Qed.
Lemma drop_unique ps a b : drop_blank ps a -> drop_blank ps b -> a = b.
Proof.
  rewrite !drop_inv. intros [(s & B & E)|[N ->]] [(s' & B' & E')|[N' ->]]; auto.
  - rewrite E in E'. now apply app_inj_tail in E'.
  - exfalso. now apply (N' _ _ E).
  - exfalso. now apply (N _ _ E').
Qed.
Theorem pattern_unique s p p' : pattern s p -> pattern s p' -> p = p'.
Proof.
  intros (ps & qs & rs & C & D & F & I) (ps' & qs' & rs' & C' & D' & F' & I').
  rewrite (cut_unique _ _ C _ C') in D. rewrite (drop_unique _ _ _ D D') in F. rewrite (Forall2_unique _ piece_unique _ _ _ F F') in I.
  destruct I; inversion I'; reflexivity.
Qed.
Theorem cut_keeps_text s ps : cut s ps -> concat (map piece_text ps) = s.
Proof. exact (cut_join s ps). Qed.
(** Text without "{{" and "[[" stands for itself. *)
Theorem plain_pattern s p : (forall a t, s = a ++ t -> ~ opens t) -> ~ blank s -> (pattern s p <-> p = PLit s).
Proof.
  intros N B. assert (H : pattern s (PLit s)).
  { exists (text s), (text s), [QLit s]. destruct s as [|c s]; [exfalso; apply B; constructor|]. splits.
    - now constructor.
    - apply (drop_text (c :: s)). now right.
    - repeat constructor.
    - constructor. }
  split; [intros H'; now apply (pattern_unique s)|now intros ->].
Qed.
(** ** Variables *)
Lemma block_unique b m m' : block_says b m -> block_says b m' -> m = m'.
Proof. rewrite !block_says_iff. intros [_ H] [_ H']. congruence. Qed.
Lemma word_not_hash w s : word w -> ~ starts (of_string "#") (w ++ s).
Proof. intros (c & r & -> & L & _) (u & E). injection E as E _. subst c. destruct L as [L|L]; [lia|discriminate]. Qed.
Lemma end_next : not_next word_char [].
Proof. intros c r. discriminate. Qed.
Theorem variable_block w re m : word w -> ~ Sum_Spec.reserved w ->
  (block_says w m <-> m = MSubst (User w) None) /\
  (block_says (of_string "$" ++ w) m <-> m = MSubst (Global w) None) /\
  (block_says (w ++ of_string ":" ++ re) m <-> m = MSubst (User w) (Some re)) /\
  (block_says (of_string "$" ++ w ++ of_string ":" ++ re) m <-> m = MSubst (Global w) (Some re)).
Proof.
  intros W R. pose proof (Sum_Props.user_word w W R) as K.
  assert (A : forall gap, spelt false gap w [TIdent w]).
  { intros gap. rewrite <- (app_nil_r w) at 1. rewrite <- K. apply sp_word_of; [easy|exact end_next|apply sp_end]. }
  assert (B : forall gap, spelt false gap (w ++ of_string ":" ++ re) [TIdent w; TColon; TRaw re]).
  { intros gap. rewrite <- K. apply sp_word_of; [easy|apply Sum_Props.colon_next|now apply sp_pattern]. }
  assert (D : forall s ts, spelt false false s ts -> spelt false true (of_string "$" ++ s) (TDollar :: ts)).
  { intros s ts H. apply (sp_punct false true "$" TDollar (Some false)); [cbn; tauto|exact H]. }
  assert (Go : forall b m0, block_says b m0 -> (block_says b m <-> m = m0)).
  { intros b m0 H. split; [intros H'; now apply (block_unique b)|now intros ->]. }
  splits; apply Go.
  - apply (bs_other w [TIdent w]); [rewrite <- (app_nil_r w); now apply word_not_hash|apply A|]. apply (dt_var [TIdent w]). constructor.
  - apply (bs_other _ [TDollar; TIdent w]); [intros (u & E); discriminate|apply D, A|]. apply (dt_var [TDollar; TIdent w]). constructor.
  - apply (bs_other _ [TIdent w; TColon; TRaw re]); [now apply word_not_hash|apply B|]. apply (dt_capture [TIdent w]). constructor.
  - apply (bs_other _ [TDollar; TIdent w; TColon; TRaw re]); [intros (u & E); discriminate|apply D, B|]. apply (dt_capture [TDollar; TIdent w]). constructor.
Qed.

(** ** What is not so *)
Definition strict_cfg : config := mkConfig [of_string "CHECK"] [of_string "COM"; of_string "RUN"] true false true.
Definition cr : string := String (Ascii.ascii_of_nat 13) "".
(** --strict-whitespace: the second space after the colon is lost as well, and blank text before a first
    block is lost altogether *)
Theorem strict_spaces_refuted :
  keeps true (txt "  foo") (txt " foo") /\
  parse_file strict_cfg (txt "CHECK:  foo") = Some [lit_line CPlain "foo"] /\
  parse_file strict_cfg (txt "CHECK:    {{x}}") = Some [mkCLine CPlain false (PRegex (txt "x"))] /\
  parse_file strict_cfg (txt "CHECK{LITERAL}:  foo") = Some [mkCLine CPlain true (PLit (txt " foo"))].
Proof. split; [apply keeps_space; reflexivity|repeat split]. Qed.
(** White space inside a regular expression is lost at its ends; white space at the end of the line is
    not, nor is the carriage return of a CRLF line. *)
Theorem pattern_ends_refuted :
  parse_file check_cfg (txt "CHECK: a{{ +}}b") = Some [mkCLine CPlain false (PParts [QLit (txt "a"); QRegex (txt "+"); QLit (txt "b")])] /\
  parse_file check_cfg (txt "CHECK: foo ") = Some [lit_line CPlain "foo "] /\
  parse_file check_cfg (txt ("CHECK: foo" ++ cr)) = Some [mkCLine CPlain false (PLit (txt "foo" ++ [13%N]))] /\
  parse_file check_cfg (txt "CHECK{LITERAL }: foo") = Some [].
Proof. repeat split. Qed.

(** ** Cases *)
Lemma check_says l f r : lsearch check_cfg l = Some (f, r) -> says check_cfg l (Some (f, r)).
Proof. destruct (default_config false false true) as [G U]. apply (says_spec check_cfg G U). Qed.
Example literal_case : let l := txt "x ; CHECK-NEXT{LITERAL}:  a[[b]] " in plain_line check_cfg l /\
  says check_cfg l (Some (FCheck (txt "CHECK") (ShKind CNext) true, txt "  a[[b]] ")) /\ keeps false (txt "  a[[b]] ") (txt "a[[b]] ").
Proof.
  cbn zeta. splits; [plain|now apply check_says|]. apply (keeps_lax false (txt "  ") (txt "a[[b]] ")); [reflexivity| |].
  - repeat constructor; now apply BoolExpr_Proofs.is_white_spec.
  - intros c r [= <- _] W. apply BoolExpr_Proofs.is_white_spec in W. discriminate.
Qed.
Example pattern_case : let l := txt "CHECK-COUNT-3: mov [[REG:r[0-9]+]], {{a|b}}" in plain_line check_cfg l /\
  says check_cfg l (Some (FCheck (txt "CHECK") (ShCount (txt "3")) false, txt " mov [[REG:r[0-9]+]], {{a|b}}")) /\
  pattern_text false (txt " mov [[REG:r[0-9]+]], {{a|b}}") (txt "mov [[REG:r[0-9]+]], {{a|b}}") /\
  kind_is (ShCount (txt "3")) (CCount 3) /\
  pattern (txt "mov [[REG:r[0-9]+]], {{a|b}}")
    (PParts [QLit (txt "mov "); QMatch (MSubst (User (txt "REG")) (Some (txt "r[0-9]+"))); QLit (txt ", "); QRegex (txt "a|b")]).
Proof.
  cbn zeta.
  assert (Sy : says check_cfg (txt "CHECK-COUNT-3: mov [[REG:r[0-9]+]], {{a|b}}") (Some (FCheck (txt "CHECK") (ShCount (txt "3")) false, txt " mov [[REG:r[0-9]+]], {{a|b}}"))) by now apply check_says.
  assert (T : pattern_text false (txt " mov [[REG:r[0-9]+]], {{a|b}}") (txt "mov [[REG:r[0-9]+]], {{a|b}}")).
  { apply pt_lax; [reflexivity|]. apply (keeps_lax_ascii (txt " ")); [repeat constructor|]. intros c r [= <- _] W. now apply ascii_blank_spec in W. }
  assert (K : kind_is (ShCount (txt "3")) (CCount 3)).
  { apply (ki_count (txt "3") 3); [|lia]. apply (vi_snoc 10 [] 0 51%N 3); [constructor|apply (di_dec 51%N); lia|lia]. }
  assert (Pl : plain_line check_cfg (txt "CHECK-COUNT-3: mov [[REG:r[0-9]+]], {{a|b}}")) by plain.
  splits; auto. destruct (default_config false false true) as [G U].
  assert (E : parse_file check_cfg (txt "CHECK-COUNT-3: mov [[REG:r[0-9]+]], {{a|b}}") = Some [mkCLine (CCount 3) false (PParts [QLit (txt "mov "); QMatch (MSubst (User (txt "REG")) (Some (txt "r[0-9]+"))); QLit (txt ", "); QRegex (txt "a|b")])]) by reflexivity.
  apply (pattern_directive check_cfg _ _ _ _ _ _ G U eq_refl Pl Sy T) in E as [(? & _)|(k & pat & _ & _ & H & X)]; [discriminate|]. injection X as _ <-. exact H.
Qed.
Example word_case : word (txt "REG_1") /\ ~ Sum_Spec.reserved (txt "REG_1").
Proof.
  split.
  - exists 82%N, [69; 71; 95; 49]%N. splits; [reflexivity|left; lia|]. repeat (apply Forall_cons; [unfold word_char, letter, digit; lia|]); apply Forall_nil.
  - cbv. intuition discriminate.
Qed.
Example plain_case : (forall a t, txt "a[b]{c}" = a ++ t -> ~ opens t) /\ ~ blank (txt "a[b]{c}").
Proof.
  split.
  - intros a t E O. apply opens_b_spec in O. assert (H : forallb (fun k => negb (opens_b (skipn k (txt "a[b]{c}")))) (seq 0 8) = true) by reflexivity.
    rewrite forallb_forall in H. assert (t = skipn (length a) (txt "a[b]{c}")) as -> by (rewrite E, skipn_app, skipn_all, Nat.sub_diag; reflexivity).
    assert (L : In (length a) (seq 0 8)) by (apply in_seq; apply (f_equal (@List.length N)) in E; rewrite app_length in E; cbn in E; lia).
    apply H in L. now rewrite O in L.
  - intros B. inversion B as [|? ? W _]; subst. apply BoolExpr_Proofs.is_white_spec in W. discriminate.
Qed.

Print Assumptions literal_directive.
Print Assumptions pattern_directive.
Print Assumptions pattern_unique.
Print Assumptions cut_keeps_text.
Print Assumptions plain_pattern.
Print Assumptions variable_block.
Print Assumptions strict_spaces_refuted.
Print Assumptions pattern_ends_refuted.
