(** The choices of the parts of a pattern and those of the regular expression it is compiled to. *)
From Coq Require Import String Sorted.
From Verif Require Import Base Text_Model Cursor_Model Check_Model Lit_Model Lit_Spec Env_Model Num_Model Gram_Model Parse_Model
  Regex_Model Regex_Spec Regex_Proofs Regex_Engine Regex_Frame Smart_Model Smart_Spec Smart_Static Smart_Parts Choice_Spec Choice_Proofs.
Open Scope list_scope.
Open Scope nat_scope.
Ltac splits := repeat match goal with |- _ /\ _ => split end.

(** * The engine, without the groups *)
Section Takes.
Context (ci : bool) (b : bytes) (e : nat).
Notation takes := (takes ci b e).
Notation takes_n := (takes_n ci b e).
Notation takes_more := (takes_more ci b e).
Notation trun := (trun ci b e).
Lemma takes_shift d : (forall r i j t, takes r i j t -> takes (re_shift d r) i j t) /\ (forall n r i j t, takes_n n r i j t -> takes_n n (re_shift d r) i j t) /\
  (forall m gr r i j t, takes_more m gr r i j t -> takes_more m gr (re_shift d r) i j t).
Proof.
  assert (X := takes_mutind ci b e (fun r i j t _ => takes (re_shift d r) i j t) (fun n r i j t _ => takes_n n (re_shift d r) i j t) (fun m gr r i j t _ => takes_more m gr (re_shift d r) i j t)).
  apply X; clear X; intros; cbn [re_shift]; econstructor; eauto.
Qed.
Lemma takes_n_un d n x : (forall i j t, takes (re_shift d x) i j t -> takes x i j t) -> forall i j t, takes_n n (re_shift d x) i j t -> takes_n n x i j t.
Proof. intros H. induction n as [|n IH]; intros i j t X; inversion X; subst; [constructor|]. eapply tn_more; eauto. Qed.
Lemma takes_more_un d x : (forall i j t, takes (re_shift d x) i j t -> takes x i j t) -> forall m gr i j t, takes_more m gr (re_shift d x) i j t -> takes_more m gr x i j t.
Proof.
  intros H. assert (G : forall m gr y i j t, takes_more m gr y i j t -> y = re_shift d x -> takes_more m gr x i j t).
  { intros m gr y i j t. induction 1; intros ->; [apply tm_full|now apply tm_stop|eapply tm_bounded; eauto|eapply tm_more; eauto|apply tm_empty; auto]. }
  intros m gr i j t X. eapply G; eauto.
Qed.
Lemma takes_unshift d r : forall i j t, takes (re_shift d r) i j t -> takes r i j t.
Proof.
  induction r as [| | |x IHx y IHy|x IHx y IHy|lo hi g x IHx|k n x IHx]; cbn [re_shift]; intros i j t H; inversion H; subst; clear H; try (econstructor; eauto; fail).
  eapply tk_rep; [eapply takes_n_un; eauto|eapply takes_more_un; eauto].
Qed.
Lemma takes_shift_iff d r i j t : takes (re_shift d r) i j t <-> takes r i j t.
Proof. split; [apply takes_unshift|apply (proj1 (takes_shift d))]. Qed.
Lemma takes_cat_app l1 l2 i j t : takes (cat (l1 ++ l2)) i j t <-> exists k t1 t2, t = t1 ++ t2 /\ takes (cat l1) i k t1 /\ takes (cat l2) k j t2.
Proof.
  revert i t. induction l1 as [|r l1 IH]; intros i t; cbn [app cat fold_right].
  - split; [intros H; exists i, [], t; splits; [reflexivity|constructor|exact H]|]. intros (k & t1 & t2 & -> & H & H2). inversion H; subst. exact H2.
  - fold (cat (l1 ++ l2)) (cat l1). split.
    + intros H. inversion H as [| | |? ? ? k ? u v H1 H2| | | |]; subst. apply IH in H2 as (k2 & t1 & t2 & -> & A & C). exists k2, (u ++ t1), t2. rewrite app_assoc. splits; auto. eapply tk_cat; eauto.
    + intros (k & t1 & t2 & -> & H & H2). inversion H as [| | |? ? ? k2 ? u v H1 H3| | | |]; subst. rewrite <- app_assoc. eapply tk_cat; [exact H1|]. apply IH. eauto 6.
Qed.
Lemma takes_cat_one r i j t : takes (cat [r]) i j t <-> takes r i j t.
Proof.
  split.
  - intros H. inversion H as [| | |? ? ? k ? u v H1 H2| | | |]; subst. inversion H2; subst. now rewrite app_nil_r.
  - intros H. rewrite <- (app_nil_r t). eapply tk_cat; [exact H|constructor].
Qed.
Lemma trun_cat_app l1 l2 : forall i g j h t, trun (cat (l1 ++ l2)) i g j h t -> exists k h' t1 t2, t = t1 ++ t2 /\ trun (cat l1) i g k h' t1 /\ trun (cat l2) k h' j h t2.
Proof.
  induction l1 as [|r l1 IH]; intros i g j h t H; cbn [app cat fold_right] in H.
  - exists i, g, [], t. splits; [reflexivity|constructor|exact H].
  - fold (cat (l1 ++ l2)) in H. inversion H as [| | |? ? ? ? k h0 ? ? u v H1 H2| | | |]; subst. apply IH in H2 as (k2 & h2 & t1 & t2 & -> & A & C). exists k2, h2, (u ++ t1), t2. rewrite app_assoc. splits; auto. eapply ur_cat; eauto.
Qed.
Lemma takes_lang r i j t : proper r -> takes r i j t -> lang ci b e r i j.
Proof.
  intros P H. apply (proj1 (takes_trun ci b e)) with (g := no_caps) in H as (h & H). apply (proj1 (trun_run ci b e)) in H; [|exact P]. now apply (proj1 (run_lang ci b e)) in H.
Qed.
Lemma takes_two r i j t j' t' : proper r -> i <= e -> takes r i j t -> takes r i j' t' -> j = j' /\ t = t' \/ sooner t t' \/ sooner t' t.
Proof.
  intros P L H H'. apply (proj1 (takes_trun ci b e)) with (g := no_caps) in H as (h & H). apply (proj1 (takes_trun ci b e)) with (g := no_caps) in H' as (h' & H').
  destruct (listing_two _ _ t (j, h) t' (j', h') (ends_listing ci b e r P i no_caps L) H H') as [X|[X|X]]; auto. left. injection X as -> -> ->. auto.
Qed.
(** repetitions of a set *)
Lemma set_takes s i j t : takes (RSet s) i j t -> t = [] /\ j = S i /\ exists c, nth_error b i = Some c /\ in_set ci s c = true.
Proof. intros H. inversion H; subst. splits; eauto. Qed.
Lemma set_takes_n s n : forall i j t, takes_n n (RSet s) i j t -> t = [] /\ j = n + i /\ (0 < n -> exists c, nth_error b i = Some c /\ in_set ci s c = true).
Proof.
  induction n as [|n IH]; intros i j t H; inversion H as [|? ? ? k ? u v H1 H2]; subst; [splits; auto; lia|].
  apply set_takes in H1 as (-> & -> & c & N & I). apply IH in H2 as (-> & -> & _). splits; [reflexivity|lia|eauto].
Qed.
Lemma set_takes_more s m : forall i j t, takes_more (Some m) true (RSet s) i j t -> exists n, n <= m /\ j = n + i /\ t = repeat false n ++ if n =? m then [] else [true].
Proof.
  induction m as [|m IH]; intros i j t H; inversion H as [|? ? ? ? N|? ? ? ? k ? u v H1 H2| |]; subst.
  - exists 0. splits; auto.
  - congruence.
  - exists 0. splits; [lia|reflexivity|reflexivity].
  - apply set_takes in H1 as (-> & -> & _). apply IH in H2 as (n & L & -> & ->). exists (S n). splits; [lia|lia|]. reflexivity.
Qed.
Lemma repeat_sooner n n' m : n < n' -> n' <= m -> sooner (repeat false n' ++ if n' =? m then [] else [true]) (repeat false n ++ if n =? m then [] else [true]).
Proof.
  intros L L2. destruct (Nat.eqb_spec n m); [lia|]. replace n' with (n + S (n' - S n)) by lia. rewrite repeat_app, <- app_assoc. cbn [repeat]. apply sooner_app. cbn [app].
  exists [], (repeat false (n' - S n) ++ if n + S (n' - S n) =? m then [] else [true]), []. auto.
Qed.
Lemma set_rep_two s lo hi i j t j' t' : takes (RRep lo (Some hi) true (RSet s)) i j t -> takes (RRep lo (Some hi) true (RSet s)) i j' t' -> j <= j' -> j = j' /\ t = t' \/ j < j' /\ sooner t' t.
Proof.
  intros H H' L. inversion H as [| | | | | |? ? ? ? ? k ? u v H1 H2|]; subst. inversion H' as [| | | | | |? ? ? ? ? k' ? u' v' H1' H2'|]; subst.
  apply set_takes_n in H1 as (-> & -> & _), H1' as (-> & -> & _). cbn [option_map app] in *. apply set_takes_more in H2 as (n & Ln & -> & ->), H2' as (n' & Ln' & -> & ->).
  destruct (Nat.eq_dec n n') as [->|N]; [left; auto|right]. split; [lia|]. apply repeat_sooner; lia.
Qed.
Lemma sign_takes s i j t : takes (RRep 0 (Some 1) true (RSet s)) i j t -> t = [true] /\ j = i \/ t = [false] /\ j = S i /\ exists c, nth_error b i = Some c /\ in_set ci s c = true.
Proof.
  intros H. inversion H as [| | | | | |? ? ? ? ? k ? u v H1 H2|]; subst. apply set_takes_n in H1 as (-> & -> & _). cbn [Nat.add app option_map Nat.sub] in *.
  inversion H2 as [|? ? ? ? N|? ? ? ? k ? u' v' H3 H4| |]; subst; [left; auto|right]. apply set_takes in H3 as (-> & -> & X). inversion H4; subst; [auto|congruence].
Qed.
Lemma chars_takes u : forall i j t, takes (cat (map (fun c => RSet (chr c)) u)) i j t -> t = [] /\ j = i + length u.
Proof.
  induction u as [|c u IH]; intros i j t H; cbn [map cat fold_right] in H; inversion H as [| | |? ? ? k ? u' v' H1 H2| | | |]; subst; [auto with arith|]. apply set_takes in H1 as (-> & -> & _). fold (cat (map (fun c => RSet (chr c)) u)) in H2. apply IH in H2 as (-> & ->). cbn [length]. split; [reflexivity|lia].
Qed.
Lemma takes_chars u : forall i j, lang ci b e (cat (map (fun c => RSet (chr c)) u)) i j -> takes (cat (map (fun c => RSet (chr c)) u)) i j [].
Proof.
  induction u as [|c u IH]; intros i j H; cbn [map cat fold_right] in *; inversion H as [|? ? ?| |? ? ? k ? H1 H2| | | |]; subst; [constructor|]. fold (cat (map (fun c => RSet (chr c)) u)) in *.
  change (@nil bool) with (@nil bool ++ []). inversion H1; subst. eapply tk_cat; [econstructor; eauto|]. now apply IH.
Qed.
(** any text of an expression is matched by some choices *)
Lemma lang_takes r i j : proper r -> i <= e -> lang ci b e r i j -> exists t, takes r i j t.
Proof.
  intros P L H. destruct (lang_ends ci b e r i j H L no_caps) as (h & I). destruct (ends_listing ci b e r P i no_caps L) as (K & E & _ & Q).
  rewrite <- E in I. apply in_map_iff in I as ([t p] & E2 & I). cbn [snd] in E2. subst p. apply Q in I. exists t. now apply (proj1 (trun_takes ci b e)) in I.
Qed.
End Takes.

(** * Numbers *)
Lemma number_proper f : compiles (format_lang f) -> proper (cat (number_res f)).
Proof.
  intros C. unfold number_res. cbn zeta. assert (P : forall l, Forall proper l -> proper (cat l)) by (induction 1; cbn; [constructor|now constructor]). apply P.
  apply Forall_app. split; [|apply Forall_app; split].
  - destruct (sign_ok _); [|constructor]. constructor; [|constructor]. constructor; [intros m [= <-]; lia|constructor].
  - apply Forall_map. apply Forall_forall. intros x _. constructor.
  - constructor; [|constructor]. constructor; [intros m [= <-]; exact C|constructor].
Qed.
Lemma digit_no_sign f p c ci : f = Signed p -> in_set ci (mkSet false (digit_set f)) c = true -> in_set ci (mkSet false sign_set) c = true -> False.
Proof.
  intros -> A C. apply in_set_alike in A as (x & X & A1). apply in_set_alike in C as (y & Y & C1). cbn [digit_set] in X. unfold in_ranges, sign_set in *. cbn [existsb fst snd] in *.
  rewrite orb_false_r, andb_true_iff, !N.leb_le in X. rewrite orb_false_r, orb_true_iff, !andb_true_iff, !N.leb_le in Y.
  destruct A1 as [A1|[_ (u & U & [[A1 A2]|[A1 A2]])]]; destruct C1 as [C1|[_ (v & V & [[C1 C2]|[C1 C2]])]]; lia.
Qed.
Lemma number_takes ci b e f i j t j' t' : compiles (format_lang f) -> takes ci b e (cat (number_res f)) i j t -> takes ci b e (cat (number_res f)) i j' t' -> j <= j' ->
  j = j' /\ t = t' \/ j < j' /\ sooner t' t.
Proof.
  intros C H H' L. unfold number_res in *. cbn zeta in *. apply takes_cat_app in H as (k & t1 & t2 & -> & H1 & H2), H' as (k' & t1' & t2' & -> & H1' & H2').
  apply takes_cat_app in H2 as (m & t3 & t4 & -> & H3 & H4), H2' as (m' & t3' & t4' & -> & H3' & H4').
  apply chars_takes in H3 as (-> & ->), H3' as (-> & ->). apply (proj1 (takes_cat_one _ _ _ _ _ _ _)) in H4. apply (proj1 (takes_cat_one _ _ _ _ _ _ _)) in H4'. cbn [app].
  assert (K : k = k' /\ t1 = t1').
  { destruct f as [p|p|p [] c]; cbn [sign_ok format_lang] in *.
    - inversion H1; subst. inversion H1'; subst. auto.
    - apply (proj1 (takes_cat_one _ _ _ _ _ _ _)) in H1. apply (proj1 (takes_cat_one _ _ _ _ _ _ _)) in H1'. apply sign_takes in H1, H1'.
      assert (D : forall j t, takes ci b e (RRep (if p =? 0 then 1 else p) (Some 39) true (RSet (mkSet false (digit_set (Signed p))))) i j t -> exists c, nth_error b i = Some c /\ in_set ci (mkSet false (digit_set (Signed p))) c = true).
      { intros j0 t0 X. inversion X as [| | | | | |? ? ? ? ? q ? u v X1 X2|]; subst. apply set_takes_n in X1 as (_ & _ & X1). apply X1. destruct (Nat.eqb_spec p 0); lia. }
      cbn [lprefix List.length lo hi] in *. rewrite Nat.add_0_r in *.
      destruct H1 as [[-> ->]|(-> & -> & c & N & S)], H1' as [[-> ->]|(-> & -> & c' & N' & S')]; auto; exfalso.
      + apply D in H4 as (x & Nx & X). rewrite N' in Nx. injection Nx as <-. eapply digit_no_sign; eauto.
      + apply D in H4' as (x & Nx & X). rewrite N in Nx. injection Nx as <-. eapply digit_no_sign; eauto.
    - inversion H1; subst. inversion H1'; subst. auto.
    - inversion H1; subst. inversion H1'; subst. auto. }
  destruct K as [<- <-]. destruct (set_rep_two _ _ _ _ _ _ _ _ _ _ _ H4 H4' L) as [[<- <-]|[Lt S]]; [left; auto|right]. split; [exact Lt|]. now apply sooner_app.
Qed.
(** the choices of the specification *)
Lemma runs_two i j j' : i <= j -> i <= j' -> j < j' -> sooner (repeat false (j' - i) ++ [true]) (repeat false (j - i) ++ [true]).
Proof.
  intros L L2 L3. replace (j' - i) with ((j - i) + S (j' - S j)) by lia. rewrite repeat_app, <- app_assoc. cbn [repeat]. apply sooner_app. cbn [app]. exists [], (repeat false (j' - S j) ++ [true]), []. auto.
Qed.

(** * One part *)
(** [matched]: a match of the compiled part and a piece, with their choices, in the same order *)
Record orderly (ci : bool) (b : bytes) (e : nat) (q : part) (rs : list re) (i : nat) (M : nat -> choices -> choices -> Prop) : Prop := {
  od_run k u : takes ci b e (cat rs) i k u -> exists t, M k u t;
  od_of k u t : M k u t -> takes ci b e (cat rs) i k u /\ chosen_piece ci b e q i k t;
  od_piece k cs t : piece ci b e q i k cs -> chosen_piece ci b e q i k t -> exists u, M k u t;
  od_two k u t k' u' t' : M k u t -> M k' u' t' -> (k = k' /\ u = u' /\ t = t') \/ sooner u u' /\ sooner t t' \/ sooner u' u /\ sooner t' t }.
Definition chosen_ok (ci : bool) (q : part) (rs : list re) : Prop := exists M, forall b e i, e <= length b -> i <= e -> orderly ci b e q rs i (M b e i).
Lemma flat_same s ts n rs ts' n' rs' : flat s ts n rs -> flat s ts' n' rs' -> ts = ts' /\ n = n' /\ rs = rs'.
Proof.
  intros (L & _ & H) (L' & _ & H'). rewrite L in L'. injection L' as <-. rewrite H in H'. injection H' as <- E. splits; auto. apply (f_equal (@rev re)) in E. now rewrite !rev_involutive in E.
Qed.
(** a regular expression *)
Lemma regex_orderly ci b e q rs i x : proper x -> i <= e -> (forall k u, takes ci b e (cat rs) i k u <-> takes ci b e x i k u) -> (forall k t, chosen_piece ci b e q i k t <-> takes ci b e x i k t) ->
  orderly ci b e q rs i (fun k u t => u = t /\ takes ci b e x i k t).
Proof.
  intros P L R C. split.
  - intros k u H. exists u. split; [reflexivity|]. now apply R.
  - intros k u t [-> H]. split; [now apply R|now apply C].
  - intros k cs t _ H. exists t. split; [reflexivity|]. now apply C.
  - intros k u t k' u' t' [-> H] [-> H']. destruct (takes_two ci b e x i k t k' t' P L H H') as [[-> ->]|[S|S]]; auto.
Qed.
(** a number *)
Lemma number_orderly ci b e q rs i f : compiles (format_lang f) -> i <= e -> (forall k u, takes ci b e (cat rs) i k u <-> takes ci b e (cat (number_res f)) i k u) ->
  (forall k cs, piece ci b e q i k cs -> lang ci b e (cat (number_res f)) i k) -> (forall k t, chosen_piece ci b e q i k t <-> t = repeat false (k - i) ++ [true]) ->
  orderly ci b e q rs i (fun k u t => takes ci b e (cat (number_res f)) i k u /\ t = repeat false (k - i) ++ [true]).
Proof.
  intros C L R P Q. pose proof (number_proper f C) as Pr. split.
  - intros k u H. eexists. split; [now apply R|reflexivity].
  - intros k u t [H ->]. split; [now apply R|now apply Q].
  - intros k cs t H H2. apply P in H. apply lang_takes in H as (u & H); auto. exists u. split; [exact H|now apply Q].
  - intros k u t k' u' t' [H ->] [H' ->].
    assert (Lk : i <= k). { apply (takes_lang ci b e) in H; auto. now apply (proj1 (lang_bounds ci b e)) in H. }
    assert (Lk' : i <= k'). { apply (takes_lang ci b e) in H'; auto. now apply (proj1 (lang_bounds ci b e)) in H'. }
    destruct (Nat.le_ge_cases k k') as [K|K].
    + destruct (number_takes ci b e f i k u k' u' C H H' K) as [[-> ->]|[Lt S]]; [auto|]. right. right. split; [exact S|]. now apply runs_two.
    + destruct (number_takes ci b e f i k' u' k u C H' H K) as [[-> ->]|[Lt S]]; [auto|]. right. left. split; [exact S|]. now apply runs_two.
Qed.
Lemma group_takes ci b e name r i j t : takes ci b e (cat [group_re name r]) i j t <-> takes ci b e r i j t.
Proof.
  rewrite takes_cat_one. destruct name; cbn [group_re].
  - split; [intros H; inversion H; subst; now apply (takes_unshift ci b e 1)|intros H; apply tk_group; now apply takes_shift_iff].
  - apply takes_shift_iff.
Qed.
Lemma static_chosen ci q : static ci q -> exists ts n rs, part_ok ci q ts n rs /\ chosen_ok ci q rs.
Proof.
  intros St. destruct (static_ok ci q St) as (ts & n & rs & P). exists ts, n, rs. split; [exact P|]. pose proof (po_flat _ _ _ _ _ P) as F.
  destruct St as [t|s x Bx A|v s x Bx Id|f C|f v C Id].
  - assert (E : rs = map (fun c => RSet (chr c)) t).
    { assert (G : flat (part_text (QLit t)) (map (fun c => KSet (chr c)) t) 0 (map (fun c => RSet (chr c)) t)).
      { unfold flat. cbn [part_text]. splits; [apply escape_lex|destruct t as [|c t]; [exact I|]|].
        * cbn [escape flat_map]. destruct (is_meta c) eqn:M; [reflexivity|]. cbn. destruct (N.eqb_spec c 63) as [->|]; [discriminate|reflexivity].
        * assert (G : forall t cur, steps (map (fun c => KSet (chr c)) t) (0, [mkFrame None [] cur]) = Some (0, [mkFrame None [] (rev (map (fun c => RSet (chr c)) t) ++ cur)])).
          { clear. induction t as [|c t IH]; intros cur; [reflexivity|]. cbn [map steps step]. unfold push. cbn [f_group f_alts f_cur]. rewrite IH. cbn [rev map]. now rewrite <- app_assoc. }
          rewrite G, app_nil_r. reflexivity. }
      now destruct (flat_same _ _ _ _ _ _ _ F G) as (_ & _ & ->). }
    subst rs. exists (fun b e i k u t' => u = [] /\ t' = [] /\ takes ci b e (cat (map (fun c => RSet (chr c)) t)) i k []). intros b e i Le Li. split.
    + intros k u H. exists []. destruct (chars_takes ci b e t i k u H) as [-> _]. auto.
    + intros k u t' (-> & -> & H). split; [exact H|constructor].
    + intros k cs t' Hp Hc. exists []. inversion Hc; subst. splits; auto. apply takes_chars. exact (po_lang _ _ _ _ _ P b e i k cs Le Li Hp).
    + intros k u t' k' u' t'' (-> & -> & H) (-> & -> & H'). left. apply chars_takes in H as [_ ->], H' as [_ ->]. auto.
  - pose proof (build_proper _ _ _ Bx) as [Px _]. destruct (build_built _ _ _ Bx) as (ts' & n' & f & H & ->). cbn [x_re] in *.
    assert (Al : f_alts f = []).
    { destruct (f_alts f) as [|a l] eqn:E; [easy|]. exfalso. unfold alt in A. rewrite E in A. cbn [fold_left] in A. clear E Px Bx H.
      revert A. generalize a, (cat (rev (f_cur f))). induction l as [|a' l IH]; intros a0 c A; cbn [fold_left] in A; [eapply A; reflexivity|eapply IH; exact A]. }
    assert (X : alt f = cat (rev (f_cur f))) by (unfold alt; now rewrite Al).
    destruct (flat_same _ _ _ _ _ _ _ F (built_flat _ _ _ _ H Al)) as (_ & _ & ->). exists (fun b e i k u t => u = t /\ takes ci b e (alt f) i k t). intros b e i Le Li. apply regex_orderly; auto.
    + intros k u. now rewrite X.
    + intros k t. split; [intros Hc; inversion Hc as [|? y ? ? ? By Ty| |]; subst; rewrite Bx in By; now injection By as <-|intros Hc; now apply cp_regex with (mkRx ci (alt f) (None :: open_names ts'))].
  - pose proof (build_proper _ _ _ Bx) as [Px _]. destruct (build_built _ _ _ Bx) as (ts' & n' & f & H & ->). cbn [x_re] in *.
    destruct (flat_same _ _ _ _ _ _ _ F (group_flat (Some (v_text v)) s ts' n' f Id H)) as (_ & _ & ->). exists (fun b e i k u t => u = t /\ takes ci b e (alt f) i k t). intros b e i Le Li. apply regex_orderly; auto.
    + intros k u. apply group_takes.
    + intros k t. split; [intros Hc; inversion Hc as [| |? ? y ? ? ? By Ty|]; subst; rewrite Bx in By; now injection By as <-|intros Hc; now apply cp_def with (mkRx ci (alt f) (None :: open_names ts'))].
  - pose proof (number_flat _ C) as (L1 & M1 & H1).
    assert (F2 : flat (group_text None (number_text (format_of f))) (opened None :: number_toks (format_of f) ++ [KClose]) 0 [group_re None (alt (mkFrame None [] (rev (number_res (format_of f)))))]).
    { apply (group_flat None); [exact I|]. split; auto. }
    destruct (flat_same _ _ _ _ _ _ _ F F2) as (_ & _ & ->). unfold alt. cbn [f_alts f_cur fold_left]. rewrite rev_involutive. exists (fun b e i k u t => takes ci b e (cat (number_res (format_of f))) i k u /\ t = repeat false (k - i) ++ [true]). intros b e i Le Li. apply number_orderly; auto.
    + intros k u. apply group_takes.
    + intros k cs Hp. apply number_lang; auto. inversion Hp; subst. eauto.
    + intros k t. split; [intros Hc; now inversion Hc|intros ->; constructor].
  - pose proof (number_flat _ C) as (L1 & M1 & H1).
    assert (F2 : flat (group_text (Some (v_text v)) (number_text (format_of f))) (opened (Some (v_text v)) :: number_toks (format_of f) ++ [KClose]) 1 [group_re (Some (v_text v)) (alt (mkFrame None [] (rev (number_res (format_of f)))))]).
    { apply (group_flat (Some (v_text v))); [exact Id|]. split; auto. }
    destruct (flat_same _ _ _ _ _ _ _ F F2) as (_ & _ & ->). unfold alt. cbn [f_alts f_cur fold_left]. rewrite rev_involutive. exists (fun b e i k u t => takes ci b e (cat (number_res (format_of f))) i k u /\ t = repeat false (k - i) ++ [true]). intros b e i Le Li. apply number_orderly; auto.
    + intros k u. apply group_takes.
    + intros k cs Hp. apply number_lang; auto. inversion Hp; subst. eauto.
    + intros k t. split; [intros Hc; now inversion Hc|intros ->; constructor].
Qed.

(** * The parts one after the other *)
Lemma flat_proper s ts n rs : flat s ts n rs -> Forall proper rs.
Proof.
  intros (L & _ & H). unfold lex_all in L. apply lex_good in L. apply steps_good in H; [|repeat constructor|exact L]. inversion H as [|? ? [_ F] _]; subst. cbn [f_cur] in F. apply Forall_rev in F. now rewrite rev_involutive in F.
Qed.
Lemma proper_shift d r : proper r -> proper (re_shift d r).
Proof. induction 1; cbn [re_shift]; constructor; auto. Qed.
Lemma proper_shifts d rs : Forall proper rs -> proper (cat (map (re_shift d) rs)).
Proof. intros F. apply cat_proper. apply Forall_map. eapply Forall_impl; [|exact F]. intros r. apply proper_shift. Qed.
Record orderly_all (ci : bool) (b : bytes) (e : nat) (l : list part) (rs : list re) (idx : list nat) (i : nat) (M : nat -> list (capt * str) -> choices -> choices -> Prop) : Prop := {
  oa_run d g j h u : trun ci b e (cat (map (re_shift d) rs)) i g j h u -> exists cs t, M j cs u t /\ map fst cs = flat_map part_caps l /\
    Forall2 (fun c k => exists r, h (d + k) = Some r /\ snd c = text_of b r) cs idx;
  oa_of k cs u t : M k cs u t -> takes ci b e (cat rs) i k u /\ chosen_pieces ci b e l i k cs t;
  oa_piece k cs t : chosen_pieces ci b e l i k cs t -> exists u, M k cs u t;
  oa_two k cs u t k' cs' u' t' : M k cs u t -> M k' cs' u' t' -> (k = k' /\ cs = cs' /\ u = u' /\ t = t') \/ sooner u u' /\ sooner t t' \/ sooner u' u /\ sooner t' t }.
Definition all_chosen ci l rs idx : Prop := exists M, forall b e i, e <= length b -> i <= e -> orderly_all ci b e l rs idx i (M b e i).
Lemma chosen_nil ci : all_chosen ci [] [] [].
Proof.
  exists (fun b e i k cs u t => k = i /\ cs = [] /\ u = [] /\ t = []). intros b e i Le Li. split.
  - intros d g j h u H. cbn in H. inversion H; subst. exists [], []. splits; auto; constructor.
  - intros k cs u t (-> & -> & -> & ->). split; constructor.
  - intros k cs t H. inversion H; subst. exists []. auto.
  - intros k cs u t k' cs' u' t' (-> & -> & -> & ->) (-> & -> & -> & ->). auto.
Qed.
Lemma chosen_cons ci q ts n rs l us m ss idx : part_ok ci q ts n rs -> chosen_ok ci q rs -> parts_ok ci l us m ss idx -> all_chosen ci l ss idx ->
  all_chosen ci (q :: l) (rs ++ map (re_shift n) ss) (part_index q ++ map (Nat.add n) idx).
Proof.
  intros [Fq Nq Oq Rq Lq] Cq [F N O X R L] Cl. pose proof (flat_facts _ _ _ _ Fq) as [En Wq]. pose proof (flat_facts _ _ _ _ F) as [Em Wl]. pose proof (flat_proper _ _ _ _ Fq) as Pq.
  assert (Ib : Forall (fun k => 1 <= k <= n) (part_index q)).
  { apply Forall_forall. intros k Hk. pose proof (part_index_range _ _ Hk) as ->. split; [lia|]. unfold part_index in *. destruct (part_caps q) as [|c cs]; [easy|]. cbn [map] in Oq. inversion Oq as [|? ? ? ? E]; subst.
    cbn in E. destruct (open_names ts); [discriminate|]. cbn. lia. }
  destruct Cq as (M1 & K1), Cl as (M2 & K2).
  exists (fun b e i j cs u t => exists k u1 u2 t1 t2 cs1 cs2, u = u1 ++ u2 /\ t = t1 ++ t2 /\ cs = cs1 ++ cs2 /\ M1 b e i k u1 t1 /\ piece ci b e q i k cs1 /\ k <= e /\ M2 b e k j cs2 u2 t2).
  intros b e i Le Li. pose proof (K1 b e i Le Li) as D1. split.
  - intros d g j h u H. rewrite map_app in H. apply trun_cat_app in H as (k & h' & u1 & u2 & -> & H1 & H2).
    pose proof (proj1 (trun_run ci b e) _ _ _ _ _ _ H1 (proper_shifts d rs Pq)) as Q1.
    assert (Lk : k <= e). { pose proof (proj1 (run_lang _ _ _) _ _ _ _ _ Q1) as Y. apply (proj1 (lang_bounds _ _ _)) in Y as [_ Y]. auto. }
    rewrite map_map in H2. rewrite (map_ext _ (re_shift (d + n))) in H2 by (intros; apply shift_shift).
    destruct (Rq b e d i g k h' Le Li Q1) as [P1 C1]. pose proof (K2 b e k Le Lk) as D2. destruct (oa_run _ _ _ _ _ _ _ _ D2 (d + n) h' j h u2 H2) as (cs & t2 & A2 & E2 & C2).
    assert (T1 : takes ci b e (cat rs) i k u1). { apply (proj1 (trun_takes ci b e)) in H1. rewrite <- cat_shift in H1. now apply takes_unshift in H1. }
    destruct (od_run _ _ _ _ _ _ _ D1 k u1 T1) as (t1 & A1).
    exists (map (fun c => (c, between b i k)) (part_caps q) ++ cs), (t1 ++ t2). splits.
    + exists k, u1, u2, t1, t2, (map (fun c => (c, between b i k)) (part_caps q)), cs. splits; auto.
    + cbn [flat_map]. rewrite map_app, map_map, E2. cbn [fst]. now rewrite map_id.
    + pose proof (proj1 (trun_run ci b e) _ _ _ _ _ _ H2 (proper_shifts (d + n) ss (flat_proper _ _ _ _ F))) as Q2. apply Forall2_app_.
      * unfold part_index in *. clear -C1 Q2 Ib Wl.
        induction (part_caps q) as [|c l0 IH]; cbn [map] in *; [constructor|]. inversion C1; subst. inversion Ib; subst. constructor; [|now apply IH].
        exists (mkRange i k). split; [|reflexivity]. rewrite <- H1. apply (proj1 (run_groups _ _ _) _ _ _ _ _ Q2). intros G. rewrite <- cat_shift in G. apply group_shift in G as (k' & E & G). apply Wl in G. lia.
      * clear -C2. induction C2 as [|c k cs ks (r & H & E) C2 IH]; cbn [map]; [constructor|]. constructor; [|easy]. exists r. split; [|easy]. now replace (d + (n + k)) with (d + n + k) by lia.
  - intros j cs u t (k & u1 & u2 & t1 & t2 & cs1 & cs2 & -> & -> & -> & A1 & Hp & Lk & A2). pose proof (K2 b e k Le Lk) as D2. apply (od_of _ _ _ _ _ _ _ D1) in A1 as [T1 P1]. apply (oa_of _ _ _ _ _ _ _ _ D2) in A2 as [T2 P2]. split.
    + apply takes_cat_app. exists k, u1, u2. splits; auto. rewrite <- cat_shift. now apply takes_shift_iff.
    + now apply cps_cons with k.
  - intros j cs t H. inversion H as [|? ? ? k ? cs1 cs2 t1 t2 Hp Hc Hl]; subst. destruct (od_piece _ _ _ _ _ _ _ D1 k cs1 t1 Hp Hc) as (u1 & A1).
    assert (Lk : k <= e). { pose proof (Lq b e i k cs1 Le Li Hp) as Lg. apply (proj1 (lang_bounds _ _ _)) in Lg as [_ Lg]. auto. }
    pose proof (K2 b e k Le Lk) as D2. destruct (oa_piece _ _ _ _ _ _ _ _ D2 j cs2 t2 Hl) as (u2 & A2). exists (u1 ++ u2), k, u1, u2, t1, t2, cs1, cs2. splits; auto.
  - intros j cs u t j' cs' u' t' (k & u1 & u2 & t1 & t2 & cs1 & cs2 & -> & -> & -> & A1 & Hp & Lk & A2) (k' & u1' & u2' & t1' & t2' & cs1' & cs2' & -> & -> & -> & A1' & Hp' & Lk' & A2').
    destruct (od_two _ _ _ _ _ _ _ D1 _ _ _ _ _ _ A1 A1') as [(-> & -> & ->)|[[S1 S2]|[S1 S2]]]; [|right; left; split; now apply sooner_ext|right; right; split; now apply sooner_ext].
    pose proof (piece_caps _ _ _ _ _ _ _ Hp) as ->. pose proof (piece_caps _ _ _ _ _ _ _ Hp') as ->.
    destruct (oa_two _ _ _ _ _ _ _ _ (K2 b e k' Le Lk) _ _ _ _ _ _ _ _ A2 A2') as [(-> & -> & -> & ->)|[[S1 S2]|[S1 S2]]]; [auto|right; left; split; now apply sooner_app|right; right; split; now apply sooner_app].
Qed.
Lemma statics_chosen ci l : Forall (static ci) l -> exists ts n rs idx, parts_ok ci l ts n rs idx /\ all_chosen ci l rs idx.
Proof.
  induction 1 as [|q l Hq Hl (us & m & ss & idx & IH & IC)]; [eexists _, _, _, _; split; [apply parts_nil|apply chosen_nil]|].
  destruct (static_chosen _ _ Hq) as (ts & n & rs & P & C). eexists _, _, _, _. split; [eapply parts_cons; eauto|eapply chosen_cons; eauto].
Qed.
(** the first match of the engine is the preferred one *)
Lemma first_preferred ci l rs idx b e i j g tl : proper (cat rs) -> all_chosen ci l rs idx -> e <= length b -> i <= e -> ends ci b e (cat rs) i no_caps = (j, g) :: tl ->
  exists cs, preferred ci b e l i j cs /\ map fst cs = flat_map part_caps l /\ Forall2 (fun c k => exists r, g k = Some r /\ snd c = text_of b r) cs idx.
Proof.
  intros P (M & C) Le Li E. pose proof (ends_listing ci b e (cat rs) P i no_caps Li) as Ls. rewrite E in Ls. apply listing_first in Ls as (u & R & Fst). cbn [fst snd] in R.
  pose proof (C b e i Le Li) as D. assert (R0 : trun ci b e (cat (map (re_shift 0) rs)) i no_caps j g u).
  { rewrite (map_ext _ (fun r => r)), map_id; [exact R|]. clear. intros r. induction r; cbn [re_shift Nat.add]; congruence. }
  destruct (oa_run _ _ _ _ _ _ _ _ D 0 no_caps j g u R0) as (cs & t & A & E1 & F). exists cs. splits; auto. exists t. split; [now apply (oa_of _ _ _ _ _ _ _ _ D) in A|].
  intros j' cs' t' H S. apply (oa_piece _ _ _ _ _ _ _ _ D) in H as (u' & A'). pose proof (oa_of _ _ _ _ _ _ _ _ D _ _ _ _ A') as [T' _].
  apply (proj1 (takes_trun ci b e)) with (g := no_caps) in T' as (g' & T').
  destruct (oa_two _ _ _ _ _ _ _ _ D _ _ _ _ _ _ _ _ A A') as [(-> & -> & -> & ->)|[[S1 S2]|[S1 S2]]].
  - now apply sooner_irr in S.
  - now apply (sooner_asym _ _ S) in S2.
  - destruct (Fst u' (j', g') T') as [Q|Q]; [injection Q as -> -> ->; now apply sooner_irr in S1|]. now apply (sooner_asym _ _ Q) in S1.
Qed.
(** ... and the only one *)
Lemma preferred_one ci l rs idx b e i j cs j' cs' : all_chosen ci l rs idx -> e <= length b -> i <= e -> preferred ci b e l i j cs -> preferred ci b e l i j' cs' -> j = j' /\ cs = cs'.
Proof.
  intros (M & C) Le Li (t & H & N) (t' & H' & N'). pose proof (C b e i Le Li) as D.
  destruct (oa_piece _ _ _ _ _ _ _ _ D _ _ _ H) as (u & A). destruct (oa_piece _ _ _ _ _ _ _ _ D _ _ _ H') as (u' & A').
  destruct (oa_two _ _ _ _ _ _ _ _ D _ _ _ _ _ _ _ _ A A') as [(-> & -> & -> & ->)|[[S1 S2]|[S1 S2]]]; [auto|elim (N' _ _ _ H S2)|elim (N _ _ _ H' S2)].
Qed.
(** some match is preferred, where there is one *)
Lemma chosen_is ci b e l i j cs t : chosen_pieces ci b e l i j cs t -> pieces ci b e l i j cs.
Proof. induction 1; [constructor|]. eapply pcs_cons; eauto. Qed.
(** a single regular expression, alternations included *)
Lemma regex_chosen ci s x : build ci s = Some x -> all_chosen ci [QRegex s] [x_re x] [].
Proof.
  intros B. pose proof (build_proper _ _ _ B) as [P _]. exists (fun b e i k cs u t => cs = [] /\ u = t /\ takes ci b e (x_re x) i k t). intros b e i Le Li. split.
  - intros d g j h u H. exists [], u. split; [|split; [reflexivity|constructor]]. split; [reflexivity|]. split; [reflexivity|]. apply (proj1 (trun_takes ci b e)) in H. cbn [map] in H. apply (proj1 (takes_cat_one _ _ _ _ _ _ _)) in H. now apply takes_unshift in H.
  - intros k cs u t (-> & -> & H). split; [now apply takes_cat_one|]. change (@nil (capt * str)) with (@nil (capt * str) ++ []). rewrite <- (app_nil_r t). apply cps_cons with k; [|now apply cp_regex with x|constructor].
    apply pc_regex with x; [exact B|]. now apply (takes_lang ci b e) in H.
  - intros k cs t H. inversion H as [|? ? ? k' ? cs1 cs2 t1 t2 Hp Hc Hl]; subst. inversion Hl; subst. inversion Hp; subst. inversion Hc as [|? y ? ? ? By Ty| |]; subst. rewrite B in By. injection By as <-.
    exists (t1 ++ []). rewrite !app_nil_r. auto.
  - intros k cs u t k' cs' u' t' (-> & -> & H) (-> & -> & H'). destruct (takes_two ci b e _ i k t k' t' P Li H H') as [[-> ->]|[S|S]]; auto.
Qed.
Lemma values_one cs vs vs' : values_for cs vs -> values_for cs vs' -> vs = vs'.
Proof.
  intros H. revert vs'. induction H as [|c [n v] cs vs [E V] H IH]; intros vs' H'; inversion H' as [|? [n' v'] ? vs2 [E' V'] H2]; subst; [reflexivity|]. cbn [fst snd] in *. f_equal; [|now apply IH].
  subst. f_equal. destruct V; inversion V'; subst; [reflexivity|]. congruence.
Qed.
Lemma choice_one ci l rs idx b s e at_ env0 r r' : all_chosen ci l rs idx -> e <= length b -> choice ci b l s e at_ env0 r -> choice ci b l s e at_ env0 r' -> r = r'.
Proof.
  intros C Le H H'.
  assert (Same : forall i j cs i' j' cs', first_pieces ci b l s e i j cs -> preferred ci b e l i j cs -> first_pieces ci b l s e i' j' cs' -> preferred ci b e l i' j' cs' -> i = i' /\ j = j' /\ cs = cs').
  { intros i j cs i' j' cs' (A1 & A2 & A3 & A4) P (B1 & B2 & B3 & B4) P'. assert (i = i').
    { destruct (Nat.lt_trichotomy i i') as [L|[L|L]]; [elim (B4 i j cs); auto|exact L|elim (A4 i' j' cs'); auto]. }
    subst i'. split; [reflexivity|]. eapply preferred_one; eauto. }
  destruct H as [N|i j cs vs F P V|i j cs F P V]; inversion H' as [N'|i' j' cs' vs' F' P' V'|i' j' cs' F' P' V']; subst; try reflexivity; try (exfalso; destruct F as (A1 & A2 & A3 & A4); eapply N'; eauto; fail); try (exfalso; destruct F' as (A1 & A2 & A3 & A4); eapply N; eauto; fail);
    destruct (Same _ _ _ _ _ _ F P F' P') as (<- & <- & <-).
  - now rewrite (values_one _ _ _ V V').
  - exfalso. eauto.
  - exfalso. eauto.
Qed.
