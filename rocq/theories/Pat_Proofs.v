(** The lexer cuts patterns as specified. *)
From Coq Require Import String.
From Verif Require Import Base Num_Model Num_Spec Num_Proofs Env_Model Gram_Model Gram_Proofs Script_Model Parse_Model Parse_Spec Parse_Proofs Parse_Lines Parse_Tokens Pat_Spec.
From Verif Require BoolExpr_Model BoolExpr_Proofs Script_Proofs Script_Spec.
Open Scope string_scope.
Open Scope list_scope.
Notation length := List.length.
Ltac splits := repeat match goal with |- _ /\ _ => split end.

(** ** Delimiters *)
Lemma starts_cons x w c s : starts (x :: w) (c :: s) <-> x = c /\ starts w s.
Proof. split; [intros (r & E); injection E as -> ->; split; [easy|now exists r]|intros [-> (r & ->)]; now exists r]. Qed.
Lemma starts_nil s : starts [] s.
Proof. now exists s. Qed.
Lemma starts_empty x w : ~ starts (x :: w) [].
Proof. now intros (r & E). Qed.
Lemma strip_none p s : strip_prefix p s = None <-> ~ starts p s.
Proof.
  split.
  - intros E (r & H). apply Script_Proofs.strip_prefix_spec in H. congruence.
  - intros N. destruct (strip_prefix p s) eqn:E; [|easy]. apply Script_Proofs.strip_prefix_spec in E. exfalso. apply N. now exists s0.
Qed.
Lemma delim_some s d r : delim_at s = Some (d, r) -> s = delim_text d ++ r.
Proof.
  unfold delim_at. intros H. apply first_some_some in H as (x & I & H).
  destruct (strip_prefix (delim_text x) s) eqn:E; [|discriminate]. injection H as <- <-. now apply Script_Proofs.strip_prefix_spec.
Qed.
Lemma delim_none s d : delim_at s = None -> ~ starts (delim_text d) s.
Proof.
  unfold delim_at. intros H. rewrite <- strip_none. destruct (strip_prefix (delim_text d) s) eqn:E; [|easy].
  assert (I : In d [DNum; DMatch; DEndMatch; DRegex; DEndRegex]) by (destruct d; cbn; auto 6).
  pose proof (proj1 (first_some_none _ _) H d I) as X. cbn in X. now rewrite E in X.
Qed.
Lemma delim_length d : 1 <= length (delim_text d).
Proof. destruct d; cbn; lia. Qed.
(** the tokens do not depend on the fuel *)
Lemma lex_fuel n m : forall md first acc s, length s < n -> length s < m -> lex_parts n md first acc s = lex_parts m md first acc s.
Proof.
  revert m. induction n as [|n IH]; intros m md first acc s L M; [lia|]. destruct m as [|m]; [lia|].
  cbn [lex_parts]. destruct s as [|c r]; [reflexivity|]. cbn in L, M.
  rewrite (IH m md first (c :: acc) r) by lia.
  destruct (delim_at (c :: r)) as [[d rest]|] eqn:D; [|reflexivity].
  apply delim_some in D. pose proof (delim_length d). assert (length (c :: r) = length (delim_text d) + length rest) by (rewrite D; apply app_length). cbn in H0.
  destruct md; destruct d; rewrite ?(IH m _ _ _ rest) by (cbn [length] in *; lia); reflexivity.
Qed.
Definition P (md : mode) (first : bool) (acc s : str) : list token := lex_parts (S (length s)) md first acc s.
Lemma P_fuel n md first acc s : length s < n -> lex_parts n md first acc s = P md first acc s.
Proof. intros L. apply lex_fuel; [easy|unfold P; lia]. Qed.
Lemma P_nil md first acc : P md first acc [] = match md with Outside => literal_after first (rev acc) | _ => [TErr] end.
Proof. reflexivity. Qed.
Lemma P_cons md first acc c r : P md first acc (c :: r) =
  let advance := P md first (c :: acc) r in
  match delim_at (c :: r) with
  | None => advance
  | Some (d, rest) =>
      let skip := P md first (rev (delim_text d) ++ acc) rest in
      match md, d with
      | Outside, DNum => literal_before first (rev acc) ++ TMatchStart :: THash :: P (InMatch true) false [] rest
      | Outside, DMatch =>
          if match rest with b :: _ => N.eqb b 91 | [] => false end then advance
          else literal_before first (rev acc) ++ TMatchStart :: P (InMatch false) false [] rest
      | Outside, DRegex => literal_before first (rev acc) ++ TRegexStart :: P InRegex false [] rest
      | InMatch numeric, DEndMatch =>
          if false_end (rev acc) then advance
          else lex_block (S (length acc)) numeric true (rev acc) ++ TMatchEnd :: P Outside first [] rest
      | InRegex, DEndRegex => TRaw (trim (rev acc)) :: TRegexEnd :: P Outside first [] rest
      | _, _ => skip
      end
  end.
Proof.
  unfold P at 1. cbn [lex_parts]. cbv zeta.
  destruct (delim_at (c :: r)) as [[d rest]|] eqn:D; [|now rewrite P_fuel by (cbn; lia)].
  apply delim_some in D. pose proof (delim_length d). assert (length (c :: r) = length (delim_text d) + length rest) by (rewrite D; apply app_length). cbn [length] in *.
  destruct md; destruct d; rewrite ?(P_fuel _ _ _ _ rest), ?(P_fuel _ _ _ _ r) by lia; reflexivity.
Qed.

(** ** Where things open *)
Definition opens_b (s : str) : bool :=
  match strip_prefix (of_string "{{") s with
  | Some _ => true
  | None => match strip_prefix (of_string "[[") s with Some (c :: _) => negb (N.eqb c 91) | Some [] => true | None => false end
  end.
Lemma opens_b_spec s : opens_b s = true <-> opens s.
Proof.
  unfold opens_b, opens. destruct (strip_prefix (of_string "{{") s) eqn:E1.
  - apply Script_Proofs.strip_prefix_spec in E1. split; [intros _; left; now exists s0|easy].
  - rewrite strip_none in E1. destruct (strip_prefix (of_string "[[") s) as [r|] eqn:E2.
    + apply Script_Proofs.strip_prefix_spec in E2. subst s. split.
      * intros H. right. split; [now exists r|]. intros (q & X). destruct r as [|c r]; [discriminate|]. injection X as -> ->. discriminate.
      * intros [X|[_ X]]; [easy|]. destruct r as [|c r]; [easy|]. destruct (N.eqb_spec c 91) as [->|]; [|easy]. exfalso. apply X. now exists r.
    + rewrite strip_none in E2. split; [discriminate|]. tauto.
Qed.
Lemma class_items_spec : forall n s, length s <= n -> class_items s = true <-> items s.
Proof.
  induction n as [|n IH]; intros s L.
  - destruct s; [|cbn in L; lia]. split; [constructor|reflexivity].
  - destruct s as [|c s]; [split; [constructor|reflexivity]|]. cbn in L. cbn [class_items].
    destruct (N.eqb_spec c 93) as [->|N1]; [split; [discriminate|intros H; now inversion H]|].
    destruct (N.eqb_spec c 92) as [->|N2].
    + destruct s as [|d s]; [split; [discriminate|intros H; now inversion H]|]. cbn in L. rewrite IH by lia.
      split; [intros H; now constructor|intros H; inversion H; subst; easy].
    + rewrite IH by lia. split; [intros H; now constructor|intros H; inversion H; subst; easy].
Qed.
Lemma false_end_spec s : false_end s = true <-> inside s.
Proof.
  unfold inside. induction s as [|c s IH]; cbn [false_end].
  - split; [discriminate|]. intros (x & y & E & _). now destruct x.
  - rewrite orb_true_iff, !andb_true_iff, IH, (class_items_spec (length s)) by lia. rewrite negb_true_iff, Nat.eqb_neq, N.eqb_eq. split.
    + intros [[[-> H1] H2]|(x & y & -> & H1 & H2)].
      * exists [], s. splits; [reflexivity|now destruct s|easy].
      * exists (c :: x), y. auto.
    + intros (x & y & E & H1 & H2). destruct x as [|d x].
      * injection E as -> <-. left. splits; [reflexivity|now destruct s|easy].
      * injection E as -> ->. right. exists x, y. now splits.
Qed.
(** ** Where the lexer acts *)
Definition has (p s : str) : bool := match strip_prefix p s with Some _ => true | None => false end.
Lemma has_spec p s : has p s = true <-> starts p s.
Proof.
  unfold has. destruct (strip_prefix p s) eqn:E; [apply Script_Proofs.strip_prefix_spec in E; subst; split; [intros _; now eexists|easy]|].
  rewrite strip_none in E. split; [discriminate|easy].
Qed.
Definition act (md : mode) (acc s : str) : bool :=
  match md with
  | Outside => opens_b s
  | InMatch _ => has (of_string "]]") s && negb (false_end (rev acc))
  | InRegex => has (of_string "}}") s
  end.
Lemma skip_to md first : forall n a t acc, length a <= n ->
  (forall a1 a2, a = a1 ++ a2 -> a2 <> [] -> act md (rev a1 ++ acc) (a2 ++ t) = false) ->
  t = [] \/ act md (rev a ++ acc) t = true ->
  P md first acc (a ++ t) = P md first (rev a ++ acc) t.
Proof.
  induction n as [|n IH]; intros a t acc L N T; [destruct a; [reflexivity|cbn in L; lia]|].
  destruct a as [|c a]; [reflexivity|]. cbn in L.
  assert (Adv : P md first (c :: acc) (a ++ t) = P md first (rev (c :: a) ++ acc) t).
  { cbn [rev]. rewrite <- app_assoc. apply (IH a t (c :: acc)); [lia| |].
    - intros a1 a2 -> N2. specialize (N (c :: a1) a2 eq_refl N2). cbn [rev] in N. now rewrite <- app_assoc in N.
    - cbn [rev] in T. now rewrite <- app_assoc in T. }
  pose proof (N [] (c :: a) eq_refl) as N0. cbn [rev app] in N0. specialize (N0 ltac:(discriminate)).
  cbn [app]. rewrite P_cons. cbv zeta. destruct (delim_at (c :: a ++ t)) as [[d rest]|] eqn:D; [|exact Adv].
  apply delim_some in D.
  assert (Skip : (forall x, starts x (delim_text d) -> length x < length (delim_text d) -> x <> [] -> forall acc' y z, delim_text d = x ++ y -> act md acc' (y ++ z) = false) ->
     P md first (rev (delim_text d) ++ acc) rest = P md first (rev (c :: a) ++ acc) t).
  { intros H. destruct (le_lt_dec (length (delim_text d)) (length (c :: a))) as [Le|Lt].
    - assert (X : exists a', c :: a = delim_text d ++ a' /\ rest = a' ++ t).
      { change (c :: a ++ t) with ((c :: a) ++ t) in D. apply app_eq_app in D as (x & [[D1 D2]|[D1 D2]]); [eauto|].
        rewrite D1, app_length in Le. destruct x; [|cbn in Le; lia]. rewrite app_nil_r in D1. exists []. rewrite app_nil_r. cbn in D2. auto. }
      destruct X as (a' & Ea & ->). rewrite Ea. rewrite rev_app_distr, <- app_assoc. pose proof (delim_length d).
      assert (length (c :: a) = length (delim_text d) + length a') by (rewrite Ea; apply app_length). cbn [length] in *.
      apply IH; [lia| |].
      + intros a1 a2 -> N2. rewrite app_assoc, <- rev_app_distr. apply N; [|easy]. now rewrite <- app_assoc.
      + rewrite app_assoc, <- rev_app_distr, <- Ea. exact T.
    - exfalso. assert (X : exists y, delim_text d = (c :: a) ++ y /\ t = y ++ rest).
      { change (c :: a ++ t) with ((c :: a) ++ t) in D. apply app_eq_app in D as (x & [[D1 D2]|[D1 D2]]); [|eauto].
        rewrite D1, app_length in Lt. lia. }
      destruct X as (y & Ey & ->). destruct T as [T|T].
      + apply app_eq_nil in T as [-> ->]. rewrite app_nil_r in Ey. rewrite Ey in Lt. lia.
      + rewrite (H (c :: a)) with (acc' := rev (c :: a) ++ acc) (z := rest) in T; auto; try discriminate. now exists y. }
  assert (Ch : forall x y, x <> [] -> forall k, delim_text d = x ++ y -> length x < length (delim_text d) ->
    (forall ch r, In ch (tl (delim_text d)) -> act md k (ch :: r) = false) -> forall z, act md k (y ++ z) = false).
  { intros x y Nx k E Lx H z. destruct x as [|x0 x]; [easy|]. rewrite E, app_length in Lx. destruct y as [|y0 y]; [cbn in Lx; lia|]. cbn [app]. apply H.
    rewrite E. cbn. apply in_or_app. right. now left. }
  assert (Sk : (forall k ch r, In ch (tl (delim_text d)) -> act md k (ch :: r) = false) -> P md first (rev (delim_text d) ++ acc) rest = P md first (rev (c :: a) ++ acc) t).
  { intros H. apply Skip. intros x _ Lx Nx acc' y z E. apply (Ch x y Nx acc' E Lx). intros ch r. apply H. }
  rewrite D in N0.
  destruct md as [|numeric|].
  - destruct d; cbn [act delim_text] in N0.
    + exfalso. revert N0. unfold opens_b. cbn. discriminate.
    + destruct rest as [|b rest]; [discriminate N0|]. cbn [delim_text] in N0.
      change (negb (N.eqb b 91) = false) in N0.
      apply negb_false_iff in N0. rewrite N0. exact Adv.
    + apply Sk. intros k ch r I. cbn in I. destruct I as [<-|[]]. reflexivity.
    + discriminate N0.
    + apply Sk. intros k ch r I. cbn in I. destruct I as [<-|[]]. reflexivity.
  - destruct d; cbn [act delim_text] in N0.
    + apply Sk. intros k ch r I. cbn in I. destruct I as [<-|[<-|[]]]; reflexivity.
    + apply Sk. intros k ch r I. cbn in I. destruct I as [<-|[]]. reflexivity.
    + change (negb (false_end (rev acc)) = false) in N0. apply negb_false_iff in N0. rewrite N0. exact Adv.
    + apply Sk. intros k ch r I. cbn in I. destruct I as [<-|[]]. reflexivity.
    + apply Sk. intros k ch r I. cbn in I. destruct I as [<-|[]]. reflexivity.
  - destruct d; cbn [act delim_text] in N0.
    + apply Sk. intros k ch r I. cbn in I. destruct I as [<-|[<-|[]]]; reflexivity.
    + apply Sk. intros k ch r I. cbn in I. destruct I as [<-|[]]. reflexivity.
    + apply Sk. intros k ch r I. cbn in I. destruct I as [<-|[]]. reflexivity.
    + apply Sk. intros k ch r I. cbn in I. destruct I as [<-|[]]. reflexivity.
    + discriminate N0.
Qed.
Lemma locate md : forall s acc,
  (exists a t, s = a ++ t /\ act md (rev a ++ acc) t = true /\ forall a1 a2, a = a1 ++ a2 -> a2 <> [] -> act md (rev a1 ++ acc) (a2 ++ t) = false) \/
  (forall a1 a2, s = a1 ++ a2 -> act md (rev a1 ++ acc) a2 = false).
Proof.
  induction s as [|c s IH]; intros acc.
  - right. intros a1 a2 E. symmetry in E. apply app_eq_nil in E as [-> ->]. now destruct md.
  - destruct (act md acc (c :: s)) eqn:A.
    + left. exists [], (c :: s). splits; auto. intros a1 a2 E N. symmetry in E. apply app_eq_nil in E as [_ ->]. easy.
    + destruct (IH (c :: acc)) as [(a & t & -> & T & M)|N].
      * left. exists (c :: a), t. splits; auto.
        -- cbn [rev]. now rewrite <- app_assoc.
        -- intros a1 a2 E N. destruct a1 as [|d a1]; [cbn in E; subst a2; exact A|]. injection E as <- E.
           cbn [rev]. rewrite <- app_assoc. now apply M.
      * right. intros a1 a2 E. destruct a1 as [|d a1]; [cbn in E; subst a2; exact A|]. injection E as <- E.
        cbn [rev]. rewrite <- app_assoc. now apply N.
Qed.

(** ** The cut *)
Lemma first_open_unique a t a' t' : first_open a t -> first_open a' t' -> a ++ t = a' ++ t' -> a = a' /\ t = t'.
Proof.
  intros [O M] [O' M'] E. assert (L : length a = length a') by (apply Nat.le_antisymm; [eapply M|eapply M']; eauto).
  apply app_eq_app in E as (x & [[-> ->]|[-> ->]]); rewrite app_length in L; (destruct x; [|cbn in L; lia]); now rewrite ?app_nil_r.
Qed.
Lemma ends_unique (z b t b' t' : str) : length b = length b' -> b ++ z ++ t = b' ++ z ++ t' -> b = b' /\ t = t'.
Proof.
  intros L E. apply app_eq_app in E as (x & [[-> E]|[-> E]]); rewrite app_length in L; (destruct x; [|cbn in L; lia]); rewrite app_nil_r; cbn in E; (split; [easy|]); now apply app_inv_head in E.
Qed.
Lemma cut_inv s ps : cut s ps ->
  ((forall a t, s = a ++ t -> ~ opens t) /\ ps = text s) \/
  (exists a b t qs, s = a ++ of_string "{{" ++ b ++ of_string "}}" ++ t /\ first_open a (of_string "{{" ++ b ++ of_string "}}" ++ t) /\ regex_ends b t /\ cut t qs /\ ps = text a ++ Regex b :: qs) \/
  (exists a b t qs, s = a ++ of_string "[[" ++ b ++ of_string "]]" ++ t /\ first_open a (of_string "[[" ++ b ++ of_string "]]" ++ t) /\ block_ends b t /\ cut t qs /\ ps = text a ++ Block b :: qs).
Proof. intros [x N|a b t qs F R C|a b t qs F R C]; [left|right; left|right; right]; auto; exists a, b, t, qs; auto. Qed.
Lemma cut_unique s ps : cut s ps -> forall ps', cut s ps' -> ps = ps'.
Proof.
  induction 1 as [s N|a b t qs F R C IH|a b t qs F R C IH]; intros ps' C'; apply cut_inv in C' as [[N' ->]|[(a' & b' & t' & qs' & E & F' & R' & C' & ->)|(a' & b' & t' & qs' & E & F' & R' & C' & ->)]].
  - reflexivity.
  - exfalso. apply (N _ _ E). apply F'.
  - exfalso. apply (N _ _ E). apply F'.
  - exfalso. apply (N' _ _ eq_refl). apply F.
  - destruct (first_open_unique _ _ _ _ F F' E) as [-> X]. apply app_inv_head in X.
    assert (L : length b = length b') by (apply Nat.le_antisymm; [eapply R|eapply R']; eauto).
    destruct (ends_unique _ _ _ _ _ L X) as [-> ->]. now rewrite (IH _ C').
  - destruct (first_open_unique _ _ _ _ F F' E) as [-> X]. discriminate.
  - exfalso. apply (N' _ _ eq_refl). apply F.
  - destruct (first_open_unique _ _ _ _ F F' E) as [-> X]. discriminate.
  - destruct (first_open_unique _ _ _ _ F F' E) as [-> X]. apply app_inv_head in X. destruct R as [R0 R], R' as [R0' R'].
    assert (L : length b = length b') by (apply Nat.le_antisymm; [eapply R|eapply R']; eauto).
    destruct (ends_unique _ _ _ _ _ L X) as [-> ->]. now rewrite (IH _ C').
Qed.

(** ** The tokens of a cut *)
Definition block_toks (b : str) : list token :=
  match strip_prefix (of_string "#") b with
  | Some r => THash :: lex_block (S (length r)) true true r
  | None => lex_block (S (length b)) false true b
  end.
Fixpoint render (first : bool) (ps : list piece) : list token :=
  match ps with
  | [] => []
  | Text s :: r => match r with [] => literal_after first s | _ => literal_before first s ++ render false r end
  | Regex b :: r => TRegexStart :: TRaw (trim b) :: TRegexEnd :: render false r
  | Block b :: r => TMatchStart :: block_toks b ++ TMatchEnd :: render false r
  end.
Lemma render_text first a p ps : (forall s, p <> Text s) -> render first (text a ++ p :: ps) = literal_before first a ++ render false (p :: ps).
Proof. intros H. destruct a as [|c a]; [|reflexivity]. cbn [text app literal_before]. destruct p; [now destruct (H s)|reflexivity|reflexivity]. Qed.
Lemma P_open first acc t : opens_b t = true ->
  (exists r, t = of_string "{{" ++ r /\ P Outside first acc t = literal_before first (rev acc) ++ TRegexStart :: P InRegex false [] r) \/
  (exists r, t = of_string "[[" ++ of_string "#" ++ r /\ P Outside first acc t = literal_before first (rev acc) ++ TMatchStart :: THash :: P (InMatch true) false [] r) \/
  (exists r, t = of_string "[[" ++ r /\ ~ starts (of_string "#") r /\ ~ starts (of_string "[") r /\
     P Outside first acc t = literal_before first (rev acc) ++ TMatchStart :: P (InMatch false) false [] r).
Proof.
  intros O. destruct t as [|c t]; [discriminate|]. rewrite P_cons. cbv zeta.
  assert (S1 : starts (of_string "{{") (c :: t) \/ starts (of_string "[[") (c :: t) /\ ~ starts (of_string "[[[") (c :: t)) by now apply opens_b_spec.
  destruct S1 as [(r & E)|[(r & E) N]]; rewrite E in *.
  - left. exists r. split; reflexivity.
  - right. destruct r as [|d r].
    + right. exists []. splits; [reflexivity|now intros (q & X)|now intros (q & X)|reflexivity].
    + destruct (N.eqb_spec d 35) as [->|N1].
      * left. exists r. split; reflexivity.
      * destruct (N.eqb_spec d 91) as [->|N2]; [exfalso; apply N; now exists r|].
        right. exists (d :: r). splits; [reflexivity|intros (q & X); now injection X|intros (q & X); now injection X|].
        assert (D : delim_at (of_string "[[" ++ d :: r) = Some (DMatch, d :: r)).
        { assert (X : strip_prefix (delim_text DNum) (of_string "[[" ++ d :: r) = None).
          { apply strip_none. intros (q & Q). now injection Q. }
          unfold delim_at. cbn [first_some]. rewrite X. reflexivity. }
        rewrite D. rewrite (proj2 (N.eqb_neq d 91)) by easy. reflexivity.
Qed.
Definition minimal (md : mode) (acc a t : str) : Prop :=
  forall a1 a2, a = a1 ++ a2 -> a2 <> [] -> act md (rev a1 ++ acc) (a2 ++ t) = false.
Lemma split_cases (a t a' t' : str) : a ++ t = a' ++ t' -> (exists x, x <> [] /\ a = a' ++ x /\ t' = x ++ t) \/ length a <= length a'.
Proof.
  intros E. destruct (le_lt_dec (length a) (length a')) as [L|L]; [now right|]. left.
  apply app_eq_app in E as (x & [[-> ->]|[-> ->]]).
  - exists x. splits; auto. intros ->. rewrite app_nil_r in L. lia.
  - rewrite app_length in L. lia.
Qed.
Lemma minimal_open a t : minimal Outside [] a t -> opens_b t = true -> first_open a t.
Proof.
  intros M O. split; [now apply opens_b_spec|]. intros a' t' E O'. destruct (split_cases _ _ _ _ E) as [(x & Nx & -> & ->)|L]; [|exact L].
  apply opens_b_spec in O'. specialize (M a' x eq_refl Nx). cbn in M. congruence.
Qed.
Lemma minimal_regex b t : minimal InRegex [] b (of_string "}}" ++ t) -> regex_ends b t.
Proof.
  intros M b' t' E. destruct (split_cases _ _ _ _ E) as [(x & Nx & -> & Ex)|L]; [|exact L].
  specialize (M b' x eq_refl Nx). rewrite <- Ex in M. discriminate M.
Qed.
Lemma minimal_block n b t : minimal (InMatch n) [] b (of_string "]]" ++ t) -> ~ inside b -> block_ends b t.
Proof.
  intros M I. split; [exact I|]. intros b' t' E I'. destruct (split_cases _ _ _ _ E) as [(x & Nx & -> & Ex)|L]; [|exact L].
  specialize (M b' x eq_refl Nx). rewrite <- Ex in M. cbn [act] in M. rewrite app_nil_r, rev_involutive in M.
  destruct (false_end b') eqn:F; [apply false_end_spec in F; easy|]. discriminate M.
Qed.
Lemma inside_hash b : inside (of_string "#" ++ b) <-> inside b.
Proof. rewrite <- !false_end_spec. reflexivity. Qed.
Lemma block_ends_hash b t : block_ends b t -> block_ends (of_string "#" ++ b) t.
Proof.
  intros [I M]. split; [now rewrite inside_hash|]. intros b' t' E I'. destruct b' as [|c b'].
  - discriminate E.
  - rewrite <- app_assoc in E. injection E as <- E. change (35%N :: b') with (of_string "#" ++ b') in I'. rewrite inside_hash in I'.
    change (S (length b) <= S (length b')). apply le_n_S. exact (M b' t' E I').
Qed.
Lemma has_inv p s : has p s = true -> exists r, s = p ++ r.
Proof. intros H. now apply has_spec in H. Qed.
Lemma P_match n first b t : ~ inside b -> P (InMatch n) first (rev b) (of_string "]]" ++ t) =
  lex_block (S (length b)) n true b ++ TMatchEnd :: P Outside first [] t.
Proof.
  intros I. change (of_string "]]" ++ t) with (93%N :: 93%N :: t). rewrite P_cons. cbv zeta.
  change (delim_at (93%N :: 93%N :: t)) with (Some (DEndMatch, t)). cbv iota beta. rewrite rev_involutive, rev_length.
  destruct (false_end b) eqn:F; [apply false_end_spec in F; easy|reflexivity].
Qed.
Lemma P_regex first b t : P InRegex first (rev b) (of_string "}}" ++ t) = TRaw (trim b) :: TRegexEnd :: P Outside first [] t.
Proof.
  change (of_string "}}" ++ t) with (125%N :: 125%N :: t). rewrite P_cons. cbv zeta.
  change (delim_at (125%N :: 125%N :: t)) with (Some (DEndRegex, t)). cbv iota beta. now rewrite rev_involutive.
Qed.
(** an unclosed block: an error at the end *)
Lemma P_stuck md first s : md <> Outside -> (forall a1 a2, s = a1 ++ a2 -> act md (rev a1 ++ []) a2 = false) -> P md first [] s = [TErr].
Proof.
  intros N H. rewrite <- (app_nil_r s) at 1. rewrite (skip_to md first (length s)); auto.
  - rewrite P_nil. now destruct md.
  - intros a1 a2 -> _. rewrite (app_nil_r a2). now apply H.
Qed.
Lemma no_cut_regex a r : first_open a (of_string "{{" ++ r) -> (forall a1 a2, r = a1 ++ a2 -> act InRegex (rev a1 ++ []) a2 = false) ->
  forall ps, ~ cut (a ++ of_string "{{" ++ r) ps.
Proof.
  intros F N ps C. apply cut_inv in C as [[N' _]|[(a' & b' & t' & qs' & E & F' & R' & C' & _)|(a' & b' & t' & qs' & E & F' & R' & C' & _)]].
  - apply (N' _ _ eq_refl). apply F.
  - destruct (first_open_unique _ _ _ _ F F' E) as [-> X]. apply app_inv_head in X. specialize (N _ _ X). discriminate N.
  - destruct (first_open_unique _ _ _ _ F F' E) as [-> X]. discriminate.
Qed.
Lemma no_cut_block a r : first_open a (of_string "[[" ++ r) -> (forall b t, r = b ++ of_string "]]" ++ t -> inside b) ->
  forall ps, ~ cut (a ++ of_string "[[" ++ r) ps.
Proof.
  intros F N ps C. apply cut_inv in C as [[N' _]|[(a' & b' & t' & qs' & E & F' & R' & C' & _)|(a' & b' & t' & qs' & E & F' & R' & C' & _)]].
  - apply (N' _ _ eq_refl). apply F.
  - destruct (first_open_unique _ _ _ _ F F' E) as [-> X]. discriminate.
  - destruct (first_open_unique _ _ _ _ F F' E) as [-> X]. apply app_inv_head in X. apply R'. now apply (N _ _ X).
Qed.
Lemma stuck_inside n r : (forall a1 a2, r = a1 ++ a2 -> act (InMatch n) (rev a1 ++ []) a2 = false) ->
  forall b t, r = b ++ of_string "]]" ++ t -> inside b.
Proof.
  intros N b t E. specialize (N _ _ E). cbn [act] in N. rewrite app_nil_r, rev_involutive in N.
  apply false_end_spec. destruct (false_end b); [reflexivity|discriminate N].
Qed.
Lemma lex_render : forall n s first, length s <= n ->
  (exists ps, cut s ps /\ P Outside first [] s = render first ps) \/
  ((forall ps, ~ cut s ps) /\ exists u, P Outside first [] s = u ++ [TErr]).
Proof.
  induction n as [|n IH]; intros s first L.
  { destruct s; [|cbn in L; lia]. left. exists []. split; [|reflexivity]. apply (cut_text []). intros a t E. symmetry in E. apply app_eq_nil in E as [_ ->].
    rewrite <- opens_b_spec. discriminate. }
  destruct (locate Outside s []) as [(a & t & -> & T & M)|N].
  2:{ left. exists (text s). split.
      - constructor. intros a t E O. apply opens_b_spec in O. specialize (N a t E). cbn in N. congruence.
      - rewrite <- (app_nil_r s) at 1. rewrite (skip_to Outside first (length s)); auto.
        + rewrite P_nil, app_nil_r, rev_involutive. now destruct s.
        + intros a1 a2 -> _. rewrite (app_nil_r a2). now apply N. }
  pose proof (minimal_open a t M T) as F.
  assert (E0 : P Outside first [] (a ++ t) = P Outside first (rev a ++ []) t) by (apply (skip_to Outside first (length a)); auto).
  rewrite E0. clear E0. rewrite app_nil_r. rewrite app_length in L.
  destruct (P_open first (rev a) t T) as [(r & -> & ->)|[(r & -> & ->)|(r & -> & N1 & N2 & ->)]]; rewrite rev_involutive; rewrite ?app_length in L; cbn [length of_string] in L.
  - destruct (locate InRegex r []) as [(b & t & -> & T' & M')|N].
    + cbn [act] in T'. apply has_inv in T' as (q & ->).
      rewrite (skip_to InRegex false (length b)); [|auto|auto|now right]. rewrite app_nil_r, P_regex.
      destruct (IH q false) as [(ps & C & ->)|[C (u & ->)]]; [rewrite !app_length in L; cbn in L; lia| |].
      * left. exists (text a ++ Regex b :: ps). split.
        -- apply cut_regex; auto. now apply minimal_regex.
        -- rewrite render_text by discriminate. reflexivity.
      * right. split.
        -- intros ps C'. apply cut_inv in C' as [[N' _]|[(a' & b' & t' & qs' & E & F' & R' & C' & _)|(a' & b' & t' & qs' & E & F' & R' & C' & _)]].
           ++ apply (N' _ _ eq_refl). apply F.
           ++ destruct (first_open_unique _ _ _ _ F F' E) as [-> X]. apply app_inv_head in X. pose proof (minimal_regex _ _ M') as R.
              assert (Lb : length b = length b') by (apply Nat.le_antisymm; [eapply R|eapply R']; eauto).
              destruct (ends_unique _ _ _ _ _ Lb X) as [-> ->]. now apply C in C'.
           ++ destruct (first_open_unique _ _ _ _ F F' E) as [-> X]. discriminate.
        -- exists (literal_before first a ++ TRegexStart :: TRaw (trim b) :: TRegexEnd :: u). now rewrite <- app_assoc.
    + right. split; [now apply no_cut_regex|]. rewrite P_stuck; auto; [|discriminate].
      exists (literal_before first a ++ [TRegexStart]). now rewrite <- app_assoc.
  - destruct (locate (InMatch true) r []) as [(b & t & -> & T' & M')|N].
    + cbn [act] in T'. apply andb_prop in T' as [T1 T2]. apply has_inv in T1 as (q & ->). rewrite app_nil_r, rev_involutive in T2.
      assert (I : ~ inside b) by (rewrite <- false_end_spec; now destruct (false_end b)).
      rewrite (skip_to (InMatch true) false (length b)); [|auto|auto|right; cbn [act]; rewrite app_nil_r, rev_involutive, T2; reflexivity].
      rewrite app_nil_r, P_match by easy.
      pose proof (block_ends_hash _ _ (minimal_block _ _ _ M' I)) as R.
      destruct (IH q false) as [(ps & C & ->)|[C (u & ->)]]; [rewrite !app_length in L; cbn in L; lia| |].
      * left. exists (text a ++ Block (of_string "#" ++ b) :: ps). split.
        -- apply (cut_block a (of_string "#" ++ b)); auto.
        -- rewrite render_text by discriminate. reflexivity.
      * right. split.
        -- intros ps C'. apply cut_inv in C' as [[N' _]|[(a' & b' & t' & qs' & E & F' & R' & C' & _)|(a' & b' & t' & qs' & E & F' & R' & C' & _)]].
           ++ apply (N' _ _ eq_refl). apply F.
           ++ destruct (first_open_unique _ _ _ _ F F' E) as [-> X]. discriminate.
           ++ destruct (first_open_unique _ _ _ _ F F' E) as [-> X]. apply app_inv_head in X. destruct R as [R0 R], R' as [R0' R'].
              change (of_string "#" ++ b ++ of_string "]]" ++ q) with ((of_string "#" ++ b) ++ of_string "]]" ++ q) in X.
              assert (Lb : length (of_string "#" ++ b) = length b') by (apply Nat.le_antisymm; [eapply R|eapply R']; eauto).
              destruct (ends_unique _ _ _ _ _ Lb X) as [<- ->]. now apply C in C'.
        -- exists (literal_before first a ++ TMatchStart :: THash :: lex_block (S (length b)) true true b ++ TMatchEnd :: u).
           rewrite <- app_assoc. cbn [app]. now rewrite <- app_assoc.
    + right. split.
      * apply (no_cut_block a (of_string "#" ++ r) F). intros b t E. destruct b as [|c b]; [discriminate|]. injection E as <- E.
        change (inside (of_string "#" ++ b)). rewrite inside_hash. exact (stuck_inside true r N b t E).
      * rewrite P_stuck; auto; [|discriminate]. exists (literal_before first a ++ [TMatchStart; THash]). now rewrite <- app_assoc.
  - destruct (locate (InMatch false) r []) as [(b & t & -> & T' & M')|N].
    + cbn [act] in T'. apply andb_prop in T' as [T1 T2]. apply has_inv in T1 as (q & ->). rewrite app_nil_r, rev_involutive in T2.
      assert (I : ~ inside b) by (rewrite <- false_end_spec; now destruct (false_end b)).
      rewrite (skip_to (InMatch false) false (length b)); [|auto|auto|right; cbn [act]; rewrite app_nil_r, rev_involutive, T2; reflexivity].
      rewrite app_nil_r, P_match by easy.
      pose proof (minimal_block _ _ _ M' I) as R.
      assert (Hb : block_toks b = lex_block (S (length b)) false true b).
      { unfold block_toks. destruct (strip_prefix (of_string "#") b) as [x|] eqn:E; [|reflexivity]. apply Script_Proofs.strip_prefix_spec in E.
        exfalso. apply N1. rewrite E. now eexists. }
      destruct (IH q false) as [(ps & C & ->)|[C (u & ->)]]; [rewrite !app_length in L; cbn in L; lia| |].
      * left. exists (text a ++ Block b :: ps). split.
        -- apply (cut_block a b); auto.
        -- rewrite render_text by discriminate. cbn [render]. now rewrite Hb.
      * right. split.
        -- intros ps C'. apply cut_inv in C' as [[N' _]|[(a' & b' & t' & qs' & E & F' & R' & C' & _)|(a' & b' & t' & qs' & E & F' & R' & C' & _)]].
           ++ apply (N' _ _ eq_refl). apply F.
           ++ destruct (first_open_unique _ _ _ _ F F' E) as [-> X]. discriminate.
           ++ destruct (first_open_unique _ _ _ _ F F' E) as [-> X]. apply app_inv_head in X. destruct R as [R0 R], R' as [R0' R'].
              assert (Lb : length b = length b') by (apply Nat.le_antisymm; [eapply R|eapply R']; eauto).
              destruct (ends_unique _ _ _ _ _ Lb X) as [<- ->]. now apply C in C'.
        -- exists (literal_before first a ++ TMatchStart :: lex_block (S (length b)) false true b ++ TMatchEnd :: u).
           rewrite <- app_assoc. cbn [app]. now rewrite <- app_assoc.
    + right. split.
      * apply (no_cut_block a r F). exact (stuck_inside false r N).
      * rewrite P_stuck; auto; [|discriminate]. exists (literal_before first a ++ [TMatchStart]). now rewrite <- app_assoc.
Qed.
