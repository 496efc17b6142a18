(** The tokens of a check file, line by line, and how the parser reads them. *)
From Coq Require Import String.
From Verif Require Import Base Num_Model Env_Model Gram_Model Script_Model Parse_Model Parse_Spec Parse_Proofs Parse_Lines.
From Verif Require BoolExpr_Model BoolExpr_Proofs Script_Proofs.
Open Scope string_scope.
Open Scope list_scope.
Notation length := List.length.
Ltac splits := repeat match goal with |- _ /\ _ => split end.
Notation LF := (10%N).

(** ** One directive *)
Definition directive (cfg : config) (k : ckind) (literal : bool) (line : str) : list token :=
  TCheck k :: (if literal then [TModifier] else []) ++ TColon :: lex_pattern cfg literal line.
Definition entry (cfg : config) (f : found) (line : str) : list token :=
  match f with
  | FComment t => [TComment (strip_space t)]
  | FCheck p (ShCount ds) literal =>
      if (dec_value ds <=? 255)%Z then directive cfg (CCount (Z.to_nat (dec_value ds))) literal line else [TBad]
  | FCheck p (ShKind k) literal => directive cfg k literal line
  end.
Definition used (f : found) : list str := match f with FComment _ => [] | FCheck p _ _ => [p] end.

(** ** Fuel does not matter *)
Lemma block_length ts b r : block_tokens ts = Some (b, r) -> length ts = length b + length r.
Proof.
  revert b r. induction ts as [|t ts IH]; intros b r E; [easy|].
  assert (C : (exists b' , block_tokens ts = Some (b', r) /\ b = t :: b') \/ (b = [TMatchEnd] /\ r = ts)).
  { destruct t; cbn in E; try discriminate; try (destruct (block_tokens ts) as [[b' r']|]; [|discriminate]; injection E as <- <-; left; eauto).
    injection E as <- <-. now right. }
  destruct C as [(b' & E' & ->)|[-> ->]]; [|reflexivity]. apply IH in E'. cbn. lia.
Qed.
Lemma parts_fuel n m ts : length ts < n -> length ts < m -> parse_parts n ts = parse_parts m ts.
Proof.
  revert m ts. induction n as [|n IH]; intros m ts L M; [lia|]. destruct m as [|m]; [lia|].
  cbn [parse_parts]. destruct ts as [|t ts]; [reflexivity|]. cbn in L, M. destruct t; try reflexivity.
  - rewrite (IH m ts) by lia. reflexivity.
  - destruct (block_tokens ts) as [[b r]|] eqn:B; [|reflexivity]. apply block_length in B.
    rewrite (IH m r) by lia. reflexivity.
  - destruct ts as [|[] [|[] ts]]; try reflexivity. cbn in L, M. rewrite (IH m ts) by lia. reflexivity.
Qed.
Lemma parts_length n ts l r : parse_parts n ts = Some (l, r) -> length r <= length ts.
Proof.
  revert ts l r. induction n as [|n IH]; intros ts l r E; [easy|]. cbn [parse_parts] in E.
  destruct ts as [|t ts]; [now injection E as <- <-|].
  assert (A : forall q o, match o with Some (l0, r0) => Some (q :: l0, r0) | None => @None (list part * list token) end = Some (l, r) -> exists l0, o = Some (l0, r)).
  { intros q [[l0 r0]|]; [intros [= <- <-]; eauto|discriminate]. }
  destruct t; try discriminate.
  - injection E as <- <-. cbn. lia.
  - injection E as <- <-. cbn. lia.
  - apply A in E as (l0 & E). apply IH in E. cbn. lia.
  - destruct (block_tokens ts) as [[b r']|] eqn:B; [|discriminate]. apply block_length in B.
    destruct (parse_match _); [|discriminate]. apply A in E as (l0 & E). apply IH in E. cbn. lia.
  - destruct ts as [|[] [|[] ts]]; try discriminate. apply A in E as (l0 & E). apply IH in E. cbn. lia.
Qed.
Lemma mods_length ts b r : parse_mods ts = Some (b, r) -> length r < length ts.
Proof.
  revert b r. induction ts as [|t ts IH]; intros b r E; [easy|]. destruct t; try discriminate; cbn [parse_mods] in E.
  - destruct (parse_mods ts) as [[b' r']|]; [|discriminate]. injection E as <- <-. specialize (IH _ _ eq_refl). cbn. lia.
  - injection E as <- <-. cbn. lia.
Qed.
Lemma check_length k ts l r : parse_check k ts = Some (l, r) -> length r < length ts.
Proof.
  unfold parse_check. destruct (parse_mods ts) as [[lit r0]|] eqn:M; [|discriminate]. apply mods_length in M.
  intros E.
  assert (C : (exists t, r0 = t :: r) \/ exists ps, parse_parts (S (length r0)) r0 = Some (ps, r)).
  { destruct k as [| | | | | | |[|n]]; try discriminate; (destruct lit;
      [left; destruct r0 as [|[] r0]; try discriminate; injection E as <- <-; eauto
      |right; destruct (parse_parts (S (length r0)) r0) as [[ps r']|]; [|discriminate];
       destruct ps as [|[] []]; try discriminate; injection E as <- <-; eauto]). }
  destruct C as [(t & ->)|(ps & P)]; [cbn in M; lia|]. apply parts_length in P. lia.
Qed.
Lemma lines_fuel n m ts : length ts < n -> length ts < m -> parse_lines n ts = parse_lines m ts.
Proof.
  revert m ts. induction n as [|n IH]; intros m ts L M; [lia|]. destruct m as [|m]; [lia|].
  cbn [parse_lines]. destruct ts as [|t ts]; [reflexivity|]. cbn in L, M.
  destruct t; try reflexivity; try (apply IH; lia).
  destruct (parse_check k ts) as [[l r]|] eqn:E; [|reflexivity]. apply check_length in E. now rewrite (IH m r) by lia.
Qed.

(** ** A line feed ends a directive *)
Definition no_lf (ts : list token) : Prop := ~ In TLf ts.
Lemma no_lf_cons t ts : no_lf (t :: ts) -> t <> TLf /\ no_lf ts.
Proof. unfold no_lf. cbn. intros N. split; [intros ->; auto|auto]. Qed.
Lemma block_app ts us : no_lf ts -> block_tokens (ts ++ TLf :: us) = match block_tokens ts with Some (b, r) => Some (b, r ++ TLf :: us) | None => None end.
Proof.
  induction ts as [|t ts IH]; intros N; [reflexivity|]. apply no_lf_cons in N as [N1 N2]. specialize (IH N2).
  destruct t; cbn; try reflexivity; rewrite IH; now destruct (block_tokens ts) as [[b r]|].
Qed.
Lemma block_rest ts b r : block_tokens ts = Some (b, r) -> exists x, ts = x ++ r.
Proof.
  revert b r. induction ts as [|t ts IH]; intros b r E; [easy|].
  assert (C : (exists b' , block_tokens ts = Some (b', r)) \/ r = ts).
  { destruct t; cbn in E; try discriminate; try (destruct (block_tokens ts) as [[b' r']|]; [|discriminate]; injection E as <- <-; left; eauto).
    injection E as <- <-. now right. }
  destruct C as [(b' & E')| ->]; [|now exists [t]]. apply IH in E' as (x & ->). now exists (t :: x).
Qed.
Lemma parts_app n ts us : no_lf ts -> length ts < n -> forall m, length (ts ++ TLf :: us) < m ->
  parse_parts m (ts ++ TLf :: us) =
  match parse_parts n ts with
  | Some (l, []) => Some (l, us)
  | Some (l, r) => Some (l, r ++ TLf :: us)
  | None => None
  end.
Proof.
  revert ts. induction n as [|n IH]; intros ts N L m M; [lia|]. destruct m as [|m]; [lia|].
  rewrite app_length in M. cbn in M.
  destruct ts as [|t ts]; [reflexivity|]. apply no_lf_cons in N as [N1 N2]. cbn [app]. cbn [parse_parts]. cbn in L, M.
  assert (A : forall (q : part) (o : option (list part * list token)) o',
    o' = match o with Some (l, []) => Some (l, us) | Some (l, r) => Some (l, r ++ TLf :: us) | None => None end ->
    match o' with Some (l, r) => Some (q :: l, r) | None => None end =
    match match o with Some (l, r) => Some (q :: l, r) | None => None end with Some (l, []) => Some (l, us) | Some (l, r) => Some (l, r ++ TLf :: us) | None => None end).
  { intros q o o' ->. now destruct o as [[l [|? ?]]|]. }
  destruct t; try reflexivity; try congruence.
  - apply A, IH; auto; [lia|]. rewrite app_length. cbn. lia.
  - rewrite block_app by easy. destruct (block_tokens ts) as [[b r]|] eqn:B; [|reflexivity].
    pose proof (block_length _ _ _ B). destruct (block_rest _ _ _ B) as (x & ->). destruct (parse_match (TMatchStart :: b)); [|reflexivity].
    apply A, IH; auto.
    + intros X. apply N2. apply in_or_app. auto.
    + rewrite app_length in L. lia.
    + rewrite !app_length in *. cbn. lia.
  - destruct ts as [|t1 ts]; [reflexivity|]. apply no_lf_cons in N2 as [N3 N4]. cbn [app]. destruct t1; try reflexivity.
    destruct ts as [|t2 ts]; [reflexivity|]. apply no_lf_cons in N4 as [N5 N6]. cbn [app]. destruct t2; try reflexivity.
    cbn in L, M. apply A, IH; auto; [lia|]. rewrite app_length. cbn. lia.
Qed.
Lemma parts_rest n ts l r : no_lf ts -> parse_parts n ts = Some (l, r) -> r = [] \/ exists u, r = TErr :: u.
Proof.
  revert ts l r. induction n as [|n IH]; intros ts l r N E; [easy|]. cbn [parse_parts] in E.
  destruct ts as [|t ts]; [injection E as <- <-; now left|]. apply no_lf_cons in N as [N1 N2].
  assert (A : forall q o, match o with Some (l0, r0) => Some (q :: l0, r0) | None => @None (list part * list token) end = Some (l, r) -> exists l0, o = Some (l0, r)).
  { intros q [[l0 r0]|]; [intros [= <- <-]; eauto|discriminate]. }
  destruct t; try discriminate; try congruence.
  - injection E as <- <-. right. eauto.
  - apply A in E as (l0 & E). eapply IH; eauto.
  - destruct (block_tokens ts) as [[b r']|] eqn:B; [|discriminate]. destruct (block_rest _ _ _ B) as (x & ->).
    destruct (parse_match _); [|discriminate]. apply A in E as (l0 & E). refine (IH _ _ _ _ E).
    intros X. apply N2. apply in_or_app. auto.
  - destruct ts as [|t1 ts]; [discriminate|]. apply no_lf_cons in N2 as [N3 N4]. destruct t1; try discriminate.
    destruct ts as [|t2 ts]; [discriminate|]. apply no_lf_cons in N4 as [N5 N6]. destruct t2; try discriminate. apply A in E as (l0 & E). eapply IH; eauto.
Qed.

(** ** The parser, with enough fuel *)
Definition parse (ts : list token) : option (list cline) := parse_lines (S (length ts)) ts.
Definition both (a b : option (list cline)) : option (list cline) :=
  match a, b with Some x, Some y => Some (x ++ y) | _, _ => None end.
Lemma both_nil a : both a (Some []) = a.
Proof. destruct a; [|reflexivity]. cbn. now rewrite app_nil_r. Qed.
Lemma both_nil_l a : both (Some []) a = a.
Proof. now destruct a. Qed.
Lemma parse_lf ts : parse (TLf :: ts) = parse ts.
Proof. reflexivity. Qed.
Lemma parse_comment t ts : parse (TComment t :: ts) = parse ts.
Proof. reflexivity. Qed.
Lemma parse_check_eq k ts : parse (TCheck k :: ts) = match parse_check k ts with Some (l, r) => option_map (cons l) (parse r) | None => None end.
Proof.
  unfold parse at 1.
  assert (S1 : forall n, parse_lines (S n) (TCheck k :: ts) = match parse_check k ts with Some (l, r) => option_map (cons l) (parse_lines n r) | None => None end) by reflexivity.
  rewrite S1. clear S1. cbn [length]. destruct (parse_check k ts) as [[l r]|] eqn:E; [|reflexivity].
  apply check_length in E. f_equal. apply lines_fuel; lia.
Qed.
Lemma parse_bad ts : parse (TBad :: ts) = None.
Proof. reflexivity. Qed.

(** a directive, alone and before a line feed *)
Lemma parse_mods_of lit ts : parse_mods ((if lit : bool then [TModifier] else []) ++ TColon :: ts) = Some (lit, ts).
Proof. now destruct lit. Qed.
Lemma block_no_lf fuel : forall numeric strip s, no_lf (lex_block fuel numeric strip s).
Proof.
  induction fuel as [|k IH]; intros numeric strip s; [easy|].
  assert (C : forall t ts, t <> TLf -> no_lf ts -> no_lf (t :: ts)) by (intros t ts N1 N2 [X|X]; auto).
  cbn [lex_block]. destruct s as [|c r]; [easy|].
  repeat match goal with |- no_lf (if ?b then _ else _) => destruct b end; try (apply C; [discriminate|]; apply IH); try apply IH.
  - apply C; [discriminate|]. apply C; [discriminate|easy].
  - destruct (span is_ident_char (c :: r)) as [w r']. apply C; [|apply IH]. unfold keyword_or_ident. now repeat destruct (str_eqb w _).
  - destruct (lex_number (c :: r)) as [t r'] eqn:E. apply C; [|apply IH]. unfold lex_number in E.
    destruct (match strip_prefix (of_string "0x") (c :: r) with Some _ => _ | None => _ end) as [radix [ds q]].
    injection E as <- _. now destruct (from_str_radix radix ds).
  - apply C; [discriminate|]. apply C; [discriminate|easy].
Qed.
Lemma no_lf_app a b : no_lf a -> no_lf b -> no_lf (a ++ b).
Proof. unfold no_lf. rewrite in_app_iff. tauto. Qed.
Lemma parts_no_lf fuel : forall m first acc s, no_lf (lex_parts fuel m first acc s).
Proof.
  induction fuel as [|k IH]; intros m first acc s; [easy|].
  assert (C : forall t ts, t <> TLf -> no_lf ts -> no_lf (t :: ts)) by (intros t ts N1 N2 [X|X]; auto).
  assert (B : no_lf (literal_before first (rev acc))).
  { unfold literal_before. destruct (rev acc); [easy|]. destruct (_ && first); [easy|]. now apply C. }
  cbn [lex_parts]. destruct s as [|c r].
  - destruct m; try (apply C; easy). unfold literal_after. destruct (trim (rev acc)); [easy|]. now apply C.
  - destruct (delim_at (c :: r)) as [[d rest]|]; [|apply IH].
    destruct m as [|numeric|]; destruct d; try apply IH.
    + apply no_lf_app; [exact B|]. apply C; [discriminate|]. apply C; [discriminate|]. apply IH.
    + destruct (match rest with b :: _ => N.eqb b 91 | [] => false end); [apply IH|].
      apply no_lf_app; [exact B|]. apply C; [discriminate|]. apply IH.
    + apply no_lf_app; [exact B|]. apply C; [discriminate|]. apply IH.
    + destruct (false_end (rev acc)); [apply IH|]. apply no_lf_app; [apply block_no_lf|]. apply C; [discriminate|]. apply IH.
    + apply C; [discriminate|]. apply C; [discriminate|]. apply IH.
Qed.
Lemma directive_app cfg k lit line us : parse (directive cfg k lit line ++ TLf :: us) = both (parse (directive cfg k lit line)) (parse us).
Proof.
  unfold directive. cbn [app]. rewrite !parse_check_eq. unfold parse_check.
  replace (((if lit then [TModifier] else []) ++ TColon :: lex_pattern cfg lit line) ++ TLf :: us)
    with ((if lit then [TModifier] else []) ++ TColon :: (lex_pattern cfg lit line ++ TLf :: us)) by now rewrite <- app_assoc.
  rewrite !parse_mods_of. destruct lit.
  - unfold lex_pattern. cbn [app].
    destruct k as [| | | | | | |[|n]]; try reflexivity; rewrite parse_lf; now destruct (parse us).
  - assert (N : no_lf (lex_pattern cfg false line)) by apply parts_no_lf.
    rewrite (parts_app (S (length (lex_pattern cfg false line)))) by (auto with arith).
    destruct (parse_parts (S (length (lex_pattern cfg false line))) (lex_pattern cfg false line)) as [[ps r]|] eqn:P; [|now destruct k as [| | | | | | |[|n]]].
    assert (H : forall l, option_map (cons l) (parse (match r with [] => us | _ => r ++ TLf :: us end)) = both (option_map (cons l) (parse r)) (parse us)).
    { intros l. destruct (parts_rest _ _ _ _ N P) as [->|(u & ->)]; [now destruct (parse us)|reflexivity]. }
    assert (H' : forall (g : option cline), match match g with Some l => Some (l, match r with [] => us | _ => r ++ TLf :: us end) | None => None end with Some (l, r) => option_map (cons l) (parse r) | None => None end
       = both (match match g with Some l => Some (l, r) | None => None end with Some (l, r) => option_map (cons l) (parse r) | None => None end) (parse us)).
    { intros [l|]; [apply H|reflexivity]. }
    replace (match r with [] => Some (ps, us) | _ => Some (ps, r ++ TLf :: us) end) with (Some (ps, match r with [] => us | _ => r ++ TLf :: us end)) by now destruct r.
    destruct k as [| | | | | | |[|n]]; destruct ps as [|[] []]; try reflexivity; apply H.
Qed.
Lemma entry_app cfg f line us : parse (entry cfg f line ++ TLf :: us) = both (parse (entry cfg f line)) (parse us).
Proof.
  destruct f as [t|p [k|ds] lit]; cbn [entry].
  - cbn [app]. rewrite !parse_comment, parse_lf. now destruct (parse us).
  - apply directive_app.
  - destruct (dec_value ds <=? 255)%Z; [apply directive_app|reflexivity].
Qed.

(** ** The whole file *)
Section Config.
Context (cfg : config) (G : good_config cfg) (U : unambiguous cfg).
Lemma lsearch_rest l f t : ~ In LF l -> lsearch cfg l = Some (f, t) -> ~ In LF t /\ match f with FComment _ => t = [] | _ => True end.
Proof.
  intros L E. apply says_spec in E; auto. inversion E as [a t0 f0 r0 El W H M e|]; subst.
  apply heads_inv in H as [(p & x & I & N & O & -> & ->)|(p & sh & b & w & m & K & M' & -> & ->)].
  - destruct O as [->|(y & ->)]; [split; easy|]. exfalso. apply L. rewrite !in_app_iff. cbn. tauto.
  - split; [|easy]. intros X. apply L. rewrite !in_app_iff. tauto.
Qed.
Lemma to_eol_tail t ls : ~ In LF t -> to_eol (t ++ tail ls) = (t, tail ls).
Proof. intros N. apply to_eol_app; [easy|apply tail_eol]. Qed.
(** one step of the lexer, once the search is done *)
Definition step (fuel : nat) (lf : list token) (o : option (found * str)) : list token * list str :=
  match o with
  | None => (lf, [])
  | Some (f, rest) =>
      let '(line, rest') := match f with FComment _ => ([], rest) | _ => to_eol rest end in
      let '(ts, seen) := lex_file cfg fuel (Some 58%N) rest' in
      (lf ++ entry cfg f line ++ ts, used f ++ seen)
  end.
Lemma lex_step k prev c r : c <> 0%N ->
  lex_file cfg (S k) prev (c :: r) =
  if N.eqb c LF then step k [TLf] (search cfg (after_skip (Some LF) r) (skip_ascii r))
  else step k [] (search cfg (after_skip prev (c :: r)) (skip_ascii (c :: r))).
Proof.
  intros Z. unfold step, after_skip. cbn [lex_file]. rewrite (proj2 (N.eqb_neq c 0) Z).
  assert (C : forall lf (o : option (found * str)), match o with
    | Some (FComment t, rest) => let '(ts, seen) := lex_file cfg k (Some 58%N) rest in (lf ++ TComment (strip_space t) :: ts, seen)
    | Some (FCheck p sh literal, rest) =>
        let '(line, rest') := to_eol rest in
        let '(ts, seen) := lex_file cfg k (Some 58%N) rest' in
        match sh with
        | ShKind kd => (lf ++ TCheck kd :: (if literal then [TModifier] else []) ++ TColon :: lex_pattern cfg literal line ++ ts, p :: seen)
        | ShCount ds => if (dec_value ds <=? 255)%Z then (lf ++ TCheck (CCount (Z.to_nat (dec_value ds))) :: (if literal then [TModifier] else []) ++ TColon :: lex_pattern cfg literal line ++ ts, p :: seen)
                  else (lf ++ TBad :: ts, p :: seen)
        end
    | None => (lf, [])
    end = match o with
      | None => (lf, [])
      | Some (f, rest) =>
        let '(line, rest') := match f with FComment _ => ([], rest) | _ => to_eol rest end in
        let '(ts, seen) := lex_file cfg k (Some 58%N) rest' in (lf ++ entry cfg f line ++ ts, used f ++ seen)
      end).
  { intros lf [[[t|p [kd|ds] literal] rest]|]; cbn [entry used]; try reflexivity.
    - destruct (to_eol rest) as [line rest']. destruct (lex_file cfg k (Some 58%N) rest') as [ts seen]. unfold directive. cbn [app]. now rewrite <- app_assoc.
    - destruct (to_eol rest) as [line rest']. destruct (lex_file cfg k (Some 58%N) rest') as [ts seen]. destruct (dec_value ds <=? 255)%Z; unfold directive; cbn [app]; [now rewrite <- app_assoc|reflexivity]. }
  destruct (N.eqb c LF); apply C.
Qed.
Definition line_tokens (l : str) : list token := match lsearch cfg l with Some (f, t) => entry cfg f t | None => [] end.
Definition line_prefix (l : str) : list str := match lsearch cfg l with Some (f, _) => used f | None => [] end.
Fixpoint mid (ls : list str) : list token :=
  match ls with
  | [] => []
  | l :: r => match lsearch cfg l with
              | None => mid r
              | Some (f, t) => entry cfg f t ++ match r with [] => [] | _ => TLf :: mid r end
              end
  end.
Definition good (l : str) : Prop := ~ In LF l /\ closed cfg l /\ not_indented cfg l.
Lemma good_lines ls : Forall good ls -> Forall (good_line cfg) ls /\ Forall (not_indented cfg) ls.
Proof. rewrite !Forall_forall. intros H. split; intros l I; destruct (H _ I) as (A & B & C); [now split|easy]. Qed.
Lemma next_mid ls : Forall good ls -> match next cfg ls with
  | None => mid ls = [] /\ flat_map line_prefix ls = []
  | Some (f, t, r) => mid ls = entry cfg f t ++ match r with [] => [] | _ => TLf :: mid r end /\
      flat_map line_prefix ls = used f ++ flat_map line_prefix r /\ Forall good r /\ ~ In LF t /\
      match f with FComment _ => t = [] | _ => True end /\ length t + length (tail r) < length (file ls)
  end.
Proof.
  induction ls as [|l ls IH]; intros F; [now cbn|]. inversion F as [|? ? (L & C & I) F']; subst. cbn [next mid flat_map].
  change (line_prefix l) with (match lsearch cfg l with Some (f, _) => used f | None => [] end). destruct (lsearch cfg l) as [[f t]|] eqn:E.
  - destruct (lsearch_rest _ _ _ L E). splits; auto. rewrite file_cons, app_length.
    apply says_spec in E; auto. inversion E as [a t0 f0 r0 El W H1 M e|]; subst.
    apply heads_inv in H1 as [(p & x & I1 & N & O & -> & ->)|(p & sh & b & w & m & K & M' & -> & ->)]; rewrite !app_length; change (length (of_string ":")) with 1; lia.
  - cbn [app]. specialize (IH F'). destruct (next cfg ls) as [[[f t] r]|]; [|exact IH].
    destruct IH as (A1 & A2 & A3 & A4 & A5 & A6). splits; auto. rewrite file_cons, app_length. destruct ls; [cbn in *; lia|]. cbn [tail length]. lia.
Qed.
Lemma lex_tail n : forall ls fuel prev, length ls <= n -> Forall good ls -> length (tail ls) < fuel ->
  lex_file cfg fuel prev (tail ls) = match ls with [] => ([], []) | _ => (TLf :: mid ls, flat_map line_prefix ls) end.
Proof.
  induction n as [|n IH]; intros ls fuel prev Ln F Fu.
  - destruct ls; [|cbn in Ln; lia]. now destruct fuel.
  - destruct ls as [|l ls]; [now destruct fuel|]. destruct fuel as [|k]; [lia|].
    cbn [tail] in *. rewrite lex_step by easy. cbn [N.eqb Pos.eqb]. destruct (good_lines _ F) as [F1 F2].
    rewrite skip_search by auto. rewrite search_file by auto. pose proof (next_mid _ F) as N.
    assert (Lr : forall f t r, next cfg (l :: ls) = Some (f, t, r) -> length r <= length ls).
    { clear. revert l. induction ls as [|l' ls IH]; intros l f t r; cbn [next]; destruct (lsearch cfg l) as [[g u]|]; intros E; try discriminate; try (injection E as <- <- <-; cbn; lia).
      apply IH in E. cbn. lia. }
    destruct (next cfg (l :: ls)) as [[[f t] r]|]; cbn [option_map step].
    + destruct N as (-> & -> & F3 & NL & NC & Len). specialize (Lr _ _ _ eq_refl). cbn in Ln.
      cbn [length] in Fu.
      destruct f as [x|p sh b]; [subst t; cbn [app]|rewrite to_eol_tail by easy];
        (rewrite IH; [|lia|easy|lia]; destruct r; reflexivity).
    + destruct N as [-> ->]. reflexivity.
Qed.
Lemma lex_file_eq ls : Forall good ls -> (forall r, file ls <> 0%N :: r) ->
  lex_file cfg (S (length (file ls))) None (file ls) = (mid ls, flat_map line_prefix ls) \/
  lex_file cfg (S (length (file ls))) None (file ls) = (TLf :: mid ls, flat_map line_prefix ls).
Proof.
  intros F Z. destruct ls as [|l ls]; [now left|].
  inversion F as [|? ? (L & C & I) F']; subst.
  assert (Nil : lsearch cfg [] = None) by (unfold lsearch; now rewrite (at_nil cfg G)).
  assert (Hl : l = [] \/ exists c q, l = c :: q) by (destruct l; eauto). destruct Hl as [->|(c & q & El)].
  - rewrite file_cons. cbn [app]. rewrite (lex_tail (length ls)) by auto. cbn [mid flat_map].
    change (line_prefix []) with (match lsearch cfg [] with Some (f, _) => used f | None => [] end). rewrite Nil.
    destruct ls; auto.
  - left. assert (E : file (l :: ls) = c :: q ++ tail ls) by now rewrite file_cons, El.
    assert (Q : forall k, lex_file cfg (S k) None (file (l :: ls)) = step k [] (search cfg None (file (l :: ls)))).
    { intros k. rewrite E at 1. rewrite lex_step; [|intros ->; now apply (Z (q ++ tail ls))].
      rewrite (proj2 (N.eqb_neq c LF)) by (intros ->; apply L; rewrite El; now left). rewrite <- E.
      destruct (good_lines _ F) as [F1 F2]. now rewrite skip_search by auto. }
    rewrite Q. destruct (good_lines _ F) as [F1 F2]. rewrite search_file by auto.
    pose proof (next_mid _ F) as N. destruct (next cfg (l :: ls)) as [[[f t] r]|]; cbn [option_map step].
    + destruct N as (-> & -> & F3 & NL & NC & Len).
      destruct f as [x|p sh b]; [subst t; cbn [app]|rewrite to_eol_tail by easy];
        (rewrite (lex_tail (length r)); [|lia|easy|lia]; destruct r; reflexivity).
    + destruct N as [-> ->]. reflexivity.
Qed.

(** ** The lines, one by one *)
Fixpoint sequence (l : list (option (list cline))) : option (list cline) :=
  match l with [] => Some [] | a :: r => both a (sequence r) end.
Lemma parse_mid ls : parse (mid ls) = sequence (map (fun l => parse (line_tokens l)) ls).
Proof.
  induction ls as [|l ls IH]; [reflexivity|]. cbn [mid map sequence]. unfold line_tokens. destruct (lsearch cfg l) as [[f t]|].
  - destruct ls as [|l' ls]; [cbn [map sequence]; rewrite app_nil_r; now rewrite both_nil|]. rewrite entry_app, IH. reflexivity.
  - rewrite both_nil_l. exact IH.
Qed.
Definition parse_any (s : str) : option (list cline) * list str :=
  let '(ts, seen) := lex_file cfg (S (length s)) None s in (parse ts, seen).
Lemma parse_file_any s : parse_file cfg s =
  match fst (parse_any s) with
  | None => None
  | Some l => if allow_unused cfg then Some l else match unused_prefixes [] (check_prefixes cfg) (snd (parse_any s)) with [] => Some l | _ => None end
  end.
Proof.
  unfold parse_file, parse_any. destruct (lex_file cfg (S (length s)) None s) as [ts seen]. cbn [fst snd]. fold (parse ts).
  destruct (parse ts); [|reflexivity]. now destruct (unused_prefixes _ _ seen), (allow_unused cfg).
Qed.
Lemma parse_any_file ls : Forall good ls -> (forall r, file ls <> 0%N :: r) ->
  parse_any (file ls) = (sequence (map (fun l => parse (line_tokens l)) ls), flat_map line_prefix ls).
Proof.
  intros F Z. unfold parse_any. rewrite <- parse_mid. destruct (lex_file_eq ls F Z) as [-> | ->]; [reflexivity|]. now rewrite parse_lf.
Qed.
Lemma parse_any_line l : good l -> (forall r, l <> 0%N :: r) -> parse_any l = (parse (line_tokens l), line_prefix l).
Proof.
  intros F Z. pose proof (parse_any_file [l]) as P. rewrite file_cons in P. cbn [tail] in P. rewrite app_nil_r in P. rewrite P; auto.
  cbn [map sequence flat_map]. now rewrite both_nil, app_nil_r.
Qed.
End Config.
