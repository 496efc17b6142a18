From Coq Require Import String.
From Verif Require Import Base Num_Model Env_Model Gram_Model Parse_Model Form_Model Form_Spec.
Open Scope string_scope.
Open Scope list_scope.
Notation length := List.length.

(** ** Deciding: the precision is a byte, so there are finitely many formats *)
Definition format_dec (f g : format) : {f = g} + {f <> g}.
Proof. repeat decide equality. Defined.
Definition clines_dec (a b : option (list cline)) : {a = b} + {a <> b}.
Proof. repeat decide equality. Defined.
Definition formats : list format :=
  flat_map (fun p => Unsigned p :: Signed p :: flat_map (fun b => map (Hex p b) [Any; Upper; Lower]) [true; false]) (seq 0 256).
Lemma formats_all f : stored f -> In f formats.
Proof.
  intros S. unfold formats. apply in_flat_map. exists (precision_of f). split; [apply in_seq; cbn; unfold stored in S; lia|].
  destruct f as [p|p|p b c]; cbn [precision_of]; [now left|right; now left|]. right; right.
  apply in_flat_map. exists b. split; [destruct b; cbn; auto|]. apply in_map. destruct c; cbn; auto.
Qed.

Definition writable (f : format) : bool := match f with Signed 0 => false | Hex _ _ Lower => false | _ => true end.
Definition asks_b (cfg : config) (n : str) (f : format) : bool :=
  forallb (fun b => if clines_dec (parse_file cfg (asking n b)) (Some [mkCLine CPlain false (PParts [QMatch (block_match f b)])]) then true else false)
    [BOnly; BCapture; BValue].
Lemma asks_b_asks cfg n f : asks_b cfg n f = true <-> asks_for cfg n f.
Proof.
  unfold asks_b, asks_for. rewrite forallb_forall. split.
  - intros H b. assert (I : In b [BOnly; BCapture; BValue]) by (destruct b; cbn; auto).
    specialize (H b I). cbn beta in H. now destruct clines_dec.
  - intros H b _. rewrite H. now destruct clines_dec.
Qed.

(** ** Descriptions *)
Definition table : list (str * format) := map (fun f => (describe f, f)) formats.
Fixpoint meets (d : str) (l : list (str * format)) : option format :=
  match l with [] => None | (t, f) :: r => if str_eqb t d then Some f else meets d r end.
Definition all_meet (t : list (str * format)) : bool :=
  forallb (fun e => match meets (fst e) t with Some g => if format_dec g (snd e) then true else false | None => false end) t.
Lemma described_check : all_meet table = true.
Proof. vm_cast_no_check (eq_refl true). Qed.
Lemma all_meet_spec t d f : all_meet t = true -> In (d, f) t -> meets d t = Some f.
Proof.
  unfold all_meet. intros C I. rewrite forallb_forall in C. specialize (C _ I). cbn [fst snd] in C.
  destruct (meets d t) as [g|]; [|discriminate]. destruct (format_dec g f) as [->|]; [reflexivity|discriminate].
Qed.
Lemma in_table f : stored f -> In (describe f, f) table.
Proof. intros A. unfold table. apply in_map_iff. exists f. split; [reflexivity|now apply formats_all]. Qed.
Lemma describe_inj f g : stored f -> stored g -> describe f = describe g -> f = g.
Proof.
  intros A B E. pose proof (all_meet_spec _ _ _ described_check (in_table f A)) as F.
  pose proof (all_meet_spec _ _ _ described_check (in_table g B)) as G. rewrite E, G in F. now injection F as <-.
Qed.

(** ** No check file asks for lower case *)
Definition not_lower (f : format) : Prop := match f with Hex _ _ Lower => False | _ => True end.
Lemma p_format_not_lower ts f r : p_format ts = Some (f, r) -> not_lower f /\ stored f.
Proof.
  unfold p_format. destruct (match ts with THash :: r => (true, r) | _ => (false, ts) end) as [b u].
  destruct (p_precision u) as [[p v]|] eqn:P; [|discriminate].
  assert (Q : p < 256).
  { unfold p_precision in P. destruct u as [|t u]; [injection P as <- _; lia|].
    destruct t; try (injection P as <- _; lia). destruct u as [|[] u]; try discriminate.
    destruct ((0 <=? n) && (n <=? 255))%Z eqn:B; [|discriminate]. injection P as <- _.
    apply andb_prop in B as [B1 B2]. apply Z.leb_le in B1, B2. lia. }
  assert (R : forall (o : format), not_lower o -> precision_of o = p -> not_lower o /\ stored o) by (intros o A B; split; [easy|unfold stored; lia]).
  destruct v as [|t v]; [destruct b; [discriminate|intros [= <- <-]; now apply R]|].
  destruct t; try (destruct b; [discriminate|intros [= <- <-]; now apply R]).
  repeat match goal with |- (if ?c then _ else _) = _ -> _ => destruct c end; try discriminate; intros [= <- <-]; now apply R.
Qed.
Lemma p_numeric_format f ts m : p_numeric f ts = Some m -> exists c e, m = MNumeric f c e.
Proof.
  destruct ts; cbn [p_numeric]; [intros [= <-]; eauto|]. destruct p_capture as [[c e]|]; cbn [option_map]; [|discriminate]. intros [= <-]. eauto.
Qed.
Definition fine (m : pmatch) : Prop := match m with MNumeric (Some f) _ _ => not_lower f /\ stored f | _ => True end.
Lemma p_body_fine ts m : p_body ts = Some m -> fine m.
Proof.
  unfold p_body. intros H.
  repeat match type of H with
  | match p_format ?l with _ => _ end = _ => destruct (p_format l) as [[f r]|] eqn:F; [|discriminate]; apply p_format_not_lower in F
  | p_numeric _ _ = _ => apply p_numeric_format in H as (? & ? & ->)
  | option_map _ ?o = _ => destruct o; cbn [option_map] in H; [|discriminate]; injection H as <-
  | match ?x with _ => _ end = _ => destruct x; try discriminate
  | Some _ = _ => injection H as <-
  end; cbn; auto.
Qed.
Lemma parse_match_fine ts m : parse_match ts = Some m -> fine m.
Proof.
  unfold parse_match. destruct ts as [|t ts]; [discriminate|]. destruct t; try discriminate. destruct (rev ts) as [|t l]; [discriminate|].
  destruct t; try discriminate. apply p_body_fine.
Qed.
Definition part_fine (q : part) : Prop := match q with QMatch m => fine m | _ => True end.
Lemma parse_parts_fine fuel : forall ts l r, parse_parts fuel ts = Some (l, r) -> Forall part_fine l.
Proof.
  induction fuel as [|k IH]; intros ts l r; cbn [parse_parts]; [discriminate|].
  assert (A : forall q u, part_fine q ->
    match parse_parts k u with Some (l, r) => Some (q :: l, r) | None => None end = Some (l, r) -> Forall part_fine l).
  { intros q u Q H. destruct (parse_parts k u) as [[l' r']|] eqn:E; [|discriminate]. injection H as <- <-. constructor; eauto. }
  intros H.
  repeat match type of H with
  | match parse_match ?u with _ => _ end = _ => destruct (parse_match u) eqn:M; [|discriminate]; apply parse_match_fine in M
  | match parse_parts _ _ with _ => _ end = _ => eapply A; [|exact H]; cbn; now auto
  | match ?x with _ => _ end = _ => destruct x; try discriminate
  end; try (injection H as <- _; constructor); eapply A; eauto; cbn; auto.
Qed.
Definition line_fine (c : cline) : Prop := match cl_pat c with PParts l => Forall part_fine l | _ => True end.
Lemma parse_check_fine k ts c r : parse_check k ts = Some (c, r) -> line_fine c.
Proof.
  unfold parse_check. destruct (parse_mods ts) as [[b u]|]; [|discriminate].
  assert (A : forall o : option (cline * list token), o = Some (c, r) -> (forall c r, o = Some (c, r) -> line_fine c) -> line_fine c) by eauto.
  intros H. destruct b.
  - repeat match type of H with match ?x with _ => _ end = _ => destruct x; try discriminate end; injection H as <- <-; exact I.
  - destruct (parse_parts (S (length u)) u) as [[l r']|] eqn:P; [|destruct k as [| | | | | | |[|n]]; discriminate]. apply parse_parts_fine in P.
    destruct k as [| | | | | | |[|n]]; try discriminate; destruct l as [|q [|q' l]]; try discriminate;
      try (injection H as <- <-); try exact I; try exact P; destruct q; injection H as <- <-; try exact I; exact P.
Qed.
Lemma parse_lines_fine fuel : forall ts l, parse_lines fuel ts = Some l -> Forall line_fine l.
Proof.
  induction fuel as [|k IH]; intros ts l; cbn [parse_lines]; [discriminate|].
  destruct ts as [|t ts]; [intros [= <-]; constructor|]. destruct t; try discriminate; try apply IH.
  destruct (parse_check k0 ts) as [[c r]|] eqn:C; [|discriminate]. destruct (parse_lines k r) as [l'|] eqn:L; cbn [option_map]; [|discriminate].
  intros [= <-]. constructor; eauto using parse_check_fine.
Qed.
Lemma parse_file_fine cfg s l : parse_file cfg s = Some l -> Forall line_fine l.
Proof.
  unfold parse_file. destruct lex_file as [ts seen]. destruct parse_lines as [l'|] eqn:E; [|discriminate]. apply parse_lines_fine in E.
  destruct unused_prefixes; [intros [= <-]; exact E|]. destruct (allow_unused cfg); [intros [= <-]; exact E|discriminate].
Qed.
Lemma line_formats c f : line_fine c -> In f (formats_of c) -> not_lower f /\ stored f.
Proof.
  unfold line_fine, formats_of. destruct (cl_pat c) as [| | |l]; try easy. intros F I. apply in_flat_map in I as (q & I & J).
  rewrite Forall_forall in F. specialize (F q I). destruct q as [| |m]; try easy. destruct m as [|[g|] c' e]; try easy.
  destruct J as [<-|[]]. exact F.
Qed.
