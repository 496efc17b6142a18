(** Patterns that do not depend on variables: the text of the regular expression they are compiled to, and
    its language. *)
From Coq Require Import String.
From Verif Require Import Base Text_Model Cursor_Model Check_Model Lit_Model Lit_Spec Env_Model Num_Model Gram_Model Parse_Model
  Regex_Model Regex_Spec Regex_Proofs Regex_Engine Regex_Frame Smart_Model Smart_Spec.
Open Scope list_scope.
Open Scope nat_scope.
Ltac splits := repeat match goal with |- _ /\ _ => split end.

(** * Characters *)
Lemma alike_swap ci x y : alike ci x y <-> x = y \/ ci = true /\ x = swap_case y.
Proof.
  unfold alike, swap_case. split.
  - intros [->|[-> (u & L & [[-> ->]|[-> ->]])]]; [now left|right..]; split; auto.
    + destruct (N.leb_spec 65 (u + 32)), (N.leb_spec (u + 32) 90), (N.leb_spec 97 (u + 32)), (N.leb_spec (u + 32) 122); cbn; lia.
    + destruct (N.leb_spec 65 u), (N.leb_spec u 90); cbn; lia.
  - intros [->|[-> ->]]; [now left|]. destruct (N.leb_spec 65 y), (N.leb_spec y 90), (N.leb_spec 97 y), (N.leb_spec y 122); cbn;
      try (now left); right; split; auto; try (exists y; split; [lia|right; split; lia]); exists (y - 32)%N; split; try lia; left; split; lia.
Qed.
Lemma in_set_alike ci l y : in_set ci (mkSet false l) y = true <-> exists x, in_ranges l x = true /\ alike ci x y.
Proof.
  unfold in_set. cbn [negated ranges]. rewrite xorb_false_l, orb_true_iff, andb_true_iff. split.
  - intros [H|[C H]]; [exists y|exists (swap_case y)]; (split; [easy|]); apply alike_swap; auto.
  - intros (x & H & A). apply alike_swap in A as [->|[C ->]]; auto.
Qed.
Lemma in_chr c x : in_ranges [(c, c)] x = true <-> x = c.
Proof. unfold in_ranges. cbn [existsb fst snd]. rewrite orb_false_r, andb_true_iff, N.leb_le, N.leb_le. lia. Qed.

Lemma Forall2_len {A B} (P : A -> B -> Prop) l m : Forall2 P l m -> length l = length m.
Proof. induction 1; cbn; auto. Qed.

Section Buffer.
Context (ci : bool) (b : bytes) (e : nat) (B : e <= length b).
Notation lang := (lang ci b e).
Notation run := (run ci b e).
Notation piece := (piece ci b e).
Notation pieces := (pieces ci b e).
(** the text [t] from [i] to [j] *)
Inductive reads : str -> nat -> nat -> Prop :=
| rd_nil i : reads [] i i
| rd_cons x y t i j : i < e -> nth_error b i = Some y -> alike ci x y -> reads t (S i) j -> reads (x :: t) i j.
Lemma between_cons i j y : nth_error b i = Some y -> i < j -> between b i j = y :: between b (S i) j.
Proof.
  intros N L. unfold between. replace (j - i) with (S (j - S i)) by lia.
  assert (E : skipn i b = y :: skipn (S i) b).
  { clear -N. revert i N. induction b as [|z l IH]; intros [|i] N; try discriminate; [now injection N as ->|]. cbn [skipn]. now apply IH. }
  rewrite E. reflexivity.
Qed.
Lemma between_nil i : between b i i = [].
Proof. unfold between. now rewrite Nat.sub_diag. Qed.
Lemma between_length i j : i <= j -> j <= length b -> length (between b i j) = j - i.
Proof. intros L L2. unfold between. rewrite firstn_length, skipn_length. lia. Qed.
Lemma reads_spec t : forall i j, i <= e -> reads t i j <-> i <= j /\ j <= e /\ Forall2 (alike ci) t (between b i j).
Proof.
  induction t as [|x t IH]; intros i j L; split.
  - intros H. inversion H; subst. rewrite between_nil. splits; auto.
  - intros (A & C & F). apply Forall2_len in F. rewrite between_length in F by lia. cbn in F. replace j with i by lia. constructor.
  - intros H. inversion H as [|? y ? ? ? L1 N A R]; subst. apply IH in R as (L2 & L3 & F); [|lia]. splits; try lia. rewrite (between_cons _ _ y) by (easy || lia). now constructor.
  - intros (A & C & F). 
    assert (L1 : i < j). { apply Forall2_len in F. rewrite between_length in F by lia. cbn in F. lia. }
    destruct (nth_error b i) as [z|] eqn:N; [|apply nth_error_None in N; lia]. rewrite (between_cons i j z) in F by easy. inversion F; subst.
    apply rd_cons with z; auto; [lia|]. apply IH; [lia|]. splits; auto.
Qed.
Lemma reads_app t u i k j : reads t i k -> reads u k j -> reads (t ++ u) i j.
Proof. induction 1; intros R; [exact R|]. cbn. eapply rd_cons; eauto. Qed.
Lemma reads_end t i j : reads t i j -> j = i + length t.
Proof. induction 1; cbn [length]; lia. Qed.

(** sets and literals *)
Lemma set_reads l i j : lang (RSet (mkSet false l)) i j <-> exists x, in_ranges l x = true /\ reads [x] i j.
Proof.
  split.
  - intros H. inversion H as [|s i0 c L N I| | | | | |]; subst. apply in_set_alike in I as (x & R & A). exists x. split; [easy|]. apply rd_cons with c; auto. constructor.
  - intros (x & R & H). inversion H as [|? y ? ? ? L N A R0]; subst. inversion R0; subst. apply lg_set with y; auto. apply in_set_alike. eauto.
Qed.
Lemma cat_reads t : forall i j, lang (cat (map (fun c => RSet (chr c)) t)) i j <-> reads t i j.
Proof.
  induction t as [|c t IH]; intros i j; cbn [map cat fold_right].
  - split; intros H; inversion H; subst; constructor.
  - fold (cat (map (fun c => RSet (chr c)) t)). split.
    + intros H. inversion H as [| | |? ? ? k ? H1 H2| | | |]; subst. apply set_reads in H1 as (x & R & H1). apply in_chr in R as ->. apply IH in H2. exact (reads_app [c] t _ _ _ H1 H2).
    + intros H. inversion H as [|? y ? ? ? L N A R]; subst. apply lg_cat with (S i); [|now apply IH]. apply set_reads. exists c. split; [now apply in_chr|]. apply rd_cons with y; auto. constructor.
Qed.
Lemma reads_piece t i j : i <= e -> reads t i j <-> piece (QLit t) i j [].
Proof.
  intros L. split.
  - intros H. pose proof (reads_end _ _ _ H) as ->. pose proof H as H2. apply reads_spec in H2 as (_ & L2 & _); [|easy]. constructor; [easy|].
    clear -H. remember (i + length t) as j eqn:E. clear E. induction H as [i|x y t i j L N A H IH]; [now intros [|k] x; cbn|].
    intros [|k] z; cbn [nth_error]; [intros [= <-]; exists y; rewrite Nat.add_0_r; auto|]. intros Hk. apply IH in Hk as (w & W & A2). exists w. split; [|easy]. now replace (i + S k) with (S i + k) by lia.
  - intros H. inversion H as [? ? L2 T| | | |]; subst. clear H. revert i L L2 T. induction t as [|x t IH]; intros i L L2 T; cbn [length]; [rewrite Nat.add_0_r; constructor|]. cbn [length] in L2.
    destruct (T 0 x eq_refl) as (y & N & A). rewrite Nat.add_0_r in N. apply rd_cons with y; auto; [lia|]. replace (i + S (length t)) with (S i + length t) by lia. apply IH; [lia..|].
    intros k z Hk. destruct (T (S k) z Hk) as (w & W & A2). exists w. split; [|easy]. now replace (S i + k) with (i + S k) by lia.
Qed.

(** repetitions of a set *)
Lemma rep_n_reads l n : forall i j, lang_n ci b e (RSet (mkSet false l)) n i j <-> exists t, length t = n /\ Forall (fun x => in_ranges l x = true) t /\ reads t i j.
Proof.
  induction n as [|n IH]; intros i j; split.
  - intros H. apply lang_0 in H as ->. exists []. splits; constructor.
  - intros ([|] & H & _ & R); [|discriminate]. inversion R; subst. constructor.
  - intros H. apply lang_S in H as (k & H & H2). apply set_reads in H as (x & I & R). apply IH in H2 as (t & E & F & R2). exists (x :: t). splits; [now cbn; rewrite E|now constructor|exact (reads_app [x] t _ _ _ R R2)].
  - intros ([|x t] & H & F & R); [discriminate|]. inversion F; subst. inversion R as [|? y ? ? ? L N A R0]; subst. apply ln_more with (S i).
    + apply set_reads. exists x. split; auto. apply rd_cons with y; auto. constructor.
    + apply IH. exists t. splits; auto.
Qed.
Lemma rep_reads l lo hi g i j : lang (RRep lo (Some hi) g (RSet (mkSet false l))) i j <->
  exists t, lo <= length t <= hi /\ Forall (fun x => in_ranges l x = true) t /\ reads t i j.
Proof.
  split.
  - intros H. inversion H as [| | | | | |? ? ? ? n ? ? L1 L2 R|]; subst. apply rep_n_reads in R as (t & E & F & R). exists t. specialize (L2 _ eq_refl). splits; auto; lia.
  - intros (t & L & F & R). apply lg_rep with (length t); [lia|intros h [= <-]; lia|]. apply rep_n_reads. eauto.
Qed.
End Buffer.

(** * The groups of a text *)
Lemma steps_names ts : forall n fs n' fs', steps ts (n, fs) = Some (n', fs') -> n' = n + length (open_names ts).
Proof.
  induction ts as [|t ts IH]; intros n fs n' fs' H; cbn [steps] in H; [injection H as <- _; cbn; lia|].
  destruct (step (n, fs) t) as [[n1 fs1]|] eqn:S1; [|discriminate]. apply IH in H as ->. unfold open_names. cbn [flat_map]. rewrite app_length. fold (open_names ts).
  unfold step in S1. destruct fs as [|f fs]; [discriminate|].
  destruct t as [s|l|[name|]| | |lo hi g]; try (injection S1 as <- _; cbn; lia).
  - destruct fs as [|g fs]; [discriminate|]. injection S1 as <- _. cbn. lia.
  - destruct (f_cur f); [discriminate|]. injection S1 as <- _. cbn. lia.
Qed.
Definition within (n : nat) (r : re) : Prop := forall k, group_of r k -> 1 <= k <= n.
Definition frame_within (n : nat) (f : frame) : Prop :=
  Forall (within n) (f_alts f) /\ Forall (within n) (f_cur f) /\ match f_group f with Some (k, _) => 1 <= k <= n | None => True end.
Lemma within_le n m r : n <= m -> within n r -> within m r.
Proof. intros L W k H. apply W in H. lia. Qed.
Lemma frame_within_le n m f : n <= m -> frame_within n f -> frame_within m f.
Proof.
  intros L (A & C & G). unfold frame_within in *; splits.
  - eapply Forall_impl; [|exact A]. intros r. now apply within_le.
  - eapply Forall_impl; [|exact C]. intros r. now apply within_le.
  - destruct (f_group f) as [[k nm]|]; [lia|easy].
Qed.
Lemma cat_within n rs : Forall (within n) rs -> within n (cat rs).
Proof. induction 1 as [|r rs W F IH]; intros k; cbn; [easy|]. intros [H|H]; [now apply W|now apply IH]. Qed.
Lemma alt_within n f : frame_within n f -> within n (alt f).
Proof.
  intros (A & C & _). unfold alt. assert (D : within n (cat (rev (f_cur f)))) by (apply cat_within; now apply Forall_rev).
  revert D. generalize (cat (rev (f_cur f))). induction A as [|a l W F IH]; intros r D; [exact D|]. cbn. apply IH. intros k [H|H]; [now apply W|now apply D].
Qed.
Lemma close_within n f : frame_within n f -> within n (close_frame f).
Proof.
  intros F. pose proof (alt_within n f F) as A. unfold close_frame. destruct F as (_ & _ & G). destruct (f_group f) as [[k nm]|]; [|exact A].
  intros k' [->|H]; [exact G|now apply A].
Qed.
Lemma push_within n r f : within n r -> frame_within n f -> frame_within n (push r f).
Proof. intros W (A & C & G). unfold frame_within in *; splits; cbn; auto. Qed.
Lemma step_within n fs t n' fs' : step (n, fs) t = Some (n', fs') -> Forall (frame_within n) fs -> Forall (frame_within n') fs'.
Proof.
  intros H F. cbn [step] in H. destruct F as [|f fs W F]; [discriminate|].
  assert (E : frame_within n (mkFrame None [] [])) by (unfold frame_within in *; splits; cbn; auto).
  destruct t as [s|l|[name|]| | |lo hi g].
  - injection H as <- <-. constructor; [apply push_within; [intros k []|easy]|easy].
  - injection H as <- <-. constructor; [apply push_within; [intros k []|easy]|easy].
  - injection H as <- <-. constructor; [unfold frame_within in *; splits; cbn; auto; lia|]. constructor; [eapply frame_within_le; [|exact W]; lia|].
    eapply Forall_impl; [|exact F]. intros x. apply frame_within_le. lia.
  - injection H as <- <-. auto.
  - destruct F as [|g fs Wg F]; [discriminate|]. injection H as <- <-. constructor; [|easy]. apply push_within; [now apply close_within|easy].
  - injection H as <- <-. constructor; [|easy]. destruct W as (A & C & G). unfold frame_within in *; splits; cbn; auto. constructor; [|easy]. apply cat_within. now apply Forall_rev.
  - destruct W as (A & C & G). destruct (f_cur f) as [|r rs]; [discriminate|]. injection H as <- <-. inversion C; subst. constructor; [|easy]. unfold frame_within in *; splits; cbn; auto.
Qed.
Lemma steps_within ts : forall n fs n' fs', steps ts (n, fs) = Some (n', fs') -> Forall (frame_within n) fs -> Forall (frame_within n') fs'.
Proof.
  induction ts as [|t ts IH]; intros n fs n' fs' H F; cbn [steps] in H; [now injection H as <- <-|].
  destruct (step (n, fs) t) as [[n1 fs1]|] eqn:S1; [|discriminate]. eapply IH; [exact H|]. eapply step_within; eauto.
Qed.

(** * A text that is compiled alone *)
Notation bottom := (mkFrame None [] []).
Definition built (s : str) (ts : list rtok) (n : nat) (f : frame) : Prop :=
  lex_all s = Some ts /\ no_mark s /\ steps ts (0, [bottom]) = Some (n, [f]).
Lemma build_built ci s x : build ci s = Some x -> exists ts n f, built s ts n f /\ x = mkRx ci (alt f) (None :: open_names ts).
Proof.
  unfold build, built. destruct (lex_all s) as [ts|] eqn:L; [|discriminate]. unfold parse_tokens. destruct (steps ts _) as [[n fs]|] eqn:S1; [|discriminate].
  destruct fs as [|f [|]]; try discriminate. destruct (distinct _); [|discriminate]. intros [= <-]. exists ts, n, f. splits; auto.
  destruct s as [|c r]; [exact I|]. cbn. destruct (N.eqb_spec c 63) as [->|]; [|reflexivity]. exfalso.
  unfold lex_all in L. cbn [length lex] in L. destruct (lex_one 63 r) as [[t r']|] eqn:E; [|discriminate].
  assert (T : exists g, t = KPost 0 (Some 1) g). { revert E. unfold lex_one. cbn. destruct (lazy_mark r) as [g r2]. intros [= <- _]. now exists g. }
  destruct T as (g & ->). destruct (lex _ r'); [|discriminate]. injection L as <-. discriminate.
Qed.
Lemma built_within s ts n f : built s ts n f -> frame_within n f /\ n = length (open_names ts) /\ f_group f = None.
Proof.
  intros (L & M & H). splits.
  - apply steps_within in H; [now inversion H|]. constructor; [|constructor]; unfold frame_within; splits; cbn; auto.
  - apply steps_names in H. exact H.
  - assert (G : forall ts n fs f0 n' f', steps ts (n, fs ++ [f0]) = Some (n', [f']) -> f_group f' = f_group f0).
    { clear. intros ts. induction ts as [|t ts IH]; intros n fs f0 n' f' H; cbn [steps] in H.
      - injection H as _ H. now apply (app_inj_tail fs []) in H as [_ <-].
      - destruct (step _ t) as [st|] eqn:S1; [|discriminate]. destruct (step_bottom _ _ _ _ _ S1) as (n1 & fs1 & f1 & ->). apply IH in H. rewrite H. clear IH H.
        destruct fs as [|y fs]; cbn [app step] in S1.
        + destruct t as [s|l|[name|]| | |lo hi g]; try (destruct (f_cur f0); [discriminate|]); try discriminate;
            injection S1 as _ E; first [now apply (app_inj_tail [] fs1) in E as [_ <-] | now apply (app_inj_tail [_] fs1) in E as [_ <-]].
        + destruct t as [s|l|[name|]| | |lo hi g]; try (destruct (f_cur y); [discriminate|]); try (destruct fs as [|z fs]; cbn [app] in S1);
            injection S1 as _ E;
            first [now apply (app_inj_tail [] fs1) in E as [_ <-] | now apply (app_inj_tail [_] fs1) in E as [_ <-] | now apply (app_inj_tail [_; _] fs1) in E as [_ <-]
                  | now apply (app_inj_tail (_ :: fs) fs1) in E as [_ <-] | now apply (app_inj_tail (_ :: _ :: fs) fs1) in E as [_ <-]| now apply (app_inj_tail (_ :: _ :: _ :: fs) fs1) in E as [_ <-]]. }
    now apply (G ts 0 [] bottom n f).
Qed.

(** the text [s] of a part, its tokens, the number of its groups and its expressions *)
Definition flat (s : str) (ts : list rtok) (n : nat) (rs : list re) : Prop :=
  lex_all s = Some ts /\ no_mark s /\ steps ts (0, [bottom]) = Some (n, [mkFrame None [] (rev rs)]).
Lemma built_flat s ts n f : built s ts n f -> f_alts f = [] -> flat s ts n (rev (f_cur f)).
Proof.
  intros H A. pose proof (built_within _ _ _ _ H) as (_ & _ & G). destruct H as (L & M & H). unfold flat. splits; auto.
  rewrite H, rev_involutive. destruct f as [g a c]. cbn in *. now subst.
Qed.
Lemma flat_facts s ts n rs : flat s ts n rs -> n = length (open_names ts) /\ within n (cat rs).
Proof.
  intros H. assert (H2 : built s ts n (mkFrame None [] (rev rs))) by exact H. apply built_within in H2 as ((_ & W & _) & -> & _). split; [reflexivity|].
  apply cat_within. cbn in W. apply Forall_rev in W. now rewrite rev_involutive in W.
Qed.
Lemma flat_over s ts n rs d cur base : flat s ts n rs ->
  steps ts (d, mkFrame None [] cur :: base) = Some (d + n, mkFrame None [] (rev (map (re_shift d) rs) ++ cur) :: base).
Proof.
  intros (_ & _ & H). pose proof (steps_over d (mkFrame None [] cur) base ts 0 [] bottom n [] (mkFrame None [] (rev rs)) eq_refl (or_intror eq_refl) H) as O.
  unfold over, onto in O. cbn [map f_group f_alts f_cur app] in O. rewrite Nat.add_0_r in O. rewrite O. now rewrite map_rev.
Qed.
Lemma no_mark_app s t : no_mark s -> no_mark t -> no_mark (s ++ t).
Proof. now destruct s. Qed.
Lemma flat_nil : flat [] [] 0 [].
Proof. unfold flat. splits; auto. exact I. Qed.
Lemma flat_app s ts n rs t us m ss : flat s ts n rs -> flat t us m ss -> flat (s ++ t) (ts ++ us) (n + m) (rs ++ map (re_shift n) ss).
Proof.
  intros F G. pose proof (flat_over _ _ _ _ n (rev rs) [] G) as O. destruct F as (L & M & H), G as (L2 & M2 & H2). unfold flat. splits.
  - now apply lex_all_app.
  - now apply no_mark_app.
  - rewrite steps_app, H, O, rev_app_distr. reflexivity.
Qed.
(** a text in a group, with a name or without capture *)
Definition opened (name : option str) : rtok := KOpen (option_map Some name).
Definition group_text (name : option str) (s : str) : str :=
  match name with Some n => named n s | None => of_string "(?:" ++ s ++ of_string ")" end.
Definition group_re (name : option str) (r : re) : re :=
  match name with Some n => RGroup 1 (Some n) (re_shift 1 r) | None => re_shift 0 r end.
Lemma take_name n r : forallb (fun c => is_letter c || is_digit c)%bool n = true ->
  take_while (fun c => is_letter c || is_digit c)%bool (n ++ 62%N :: r) = (n, 62%N :: r).
Proof. induction n as [|c n IH]; intros H; [reflexivity|]. cbn in H |- *. apply andb_prop in H as [-> H]. now rewrite IH. Qed.
Lemma open_lex n : identifier n -> lex_all (of_string "(?P<" ++ n ++ of_string ">") = Some [KOpen (Some (Some n))].
Proof.
  intros I. unfold lex_all. change (of_string "(?P<") with [40; 63; 80; 60]%N. change (of_string ">") with [62%N].
  cbn [app length lex]. unfold lex_one. cbn [N.eqb Pos.eqb lex_open]. unfold lex_open. cbn [N.eqb Pos.eqb]. unfold lex_name.
  rewrite take_name. 2:{ destruct n as [|c n]; [reflexivity|]. destruct I as [A C]. cbn. now rewrite A, C. }
  destruct n as [|c n]; [easy|]. destruct I as [A C]. rewrite A. cbn. reflexivity.
Qed.
Lemma group_flat name s ts n f : match name with Some nm => identifier nm | None => True end -> built s ts n f ->
  flat (group_text name s) (opened name :: ts ++ [KClose]) (match name with Some _ => S n | None => n end) [group_re name (alt f)].
Proof.
  intros I (L & M & H). unfold flat. splits.
  - assert (C : lex_all (of_string ")") = Some [KClose]) by reflexivity.
    assert (LC : lex_all (s ++ of_string ")") = Some (ts ++ [KClose])) by (apply lex_all_app; auto; reflexivity).
    assert (MC : no_mark (s ++ of_string ")")) by (apply no_mark_app; [easy|reflexivity]).
    destruct name as [nm|]; cbn [group_text].
    + unfold named. rewrite (app_assoc _ nm), (app_assoc (_ ++ nm)), <- (app_assoc (of_string "(?P<") nm (of_string ">")). exact (lex_all_app _ _ _ _ MC (open_lex nm I) LC).
    + exact (lex_all_app (of_string "(?:") _ [KOpen None] _ MC eq_refl LC).
  - destruct name; reflexivity.
  - cbn [steps]. destruct name as [nm|]; cbn [opened option_map step].
    + pose proof (steps_over 1 (mkFrame (Some (1, Some nm)) [] []) [bottom] ts 0 [] bottom n [] f eq_refl (or_introl eq_refl) H) as O.
      unfold over in O. cbn [map app onto f_group f_alts f_cur Nat.add] in O. rewrite steps_app. change (onto 1 bottom (mkFrame (Some (1, Some nm)) [] [])) with (mkFrame (Some (1, Some nm)) [] []) in O. rewrite O.
      cbn [steps step push close_frame onto f_group group_re rev app]. do 4 f_equal. unfold push. cbn [f_group f_alts f_cur]. do 2 f_equal.
      unfold close_frame. cbn [onto f_group]. f_equal. rewrite alt_shift. unfold alt, onto, frame_shift. cbn [f_alts f_cur]. now rewrite app_nil_r.
    + pose proof (steps_over 0 bottom [bottom] ts 0 [] bottom n [] f eq_refl (or_introl eq_refl) H) as O.
      unfold over in O. cbn [map app Nat.add] in O. rewrite steps_app. change (onto 0 bottom bottom) with bottom in O. rewrite O.
      cbn [steps step rev app group_re]. do 4 f_equal. unfold push. cbn [f_group f_alts f_cur]. do 2 f_equal.
      unfold close_frame. cbn [onto f_group]. rewrite alt_shift. unfold alt, onto, frame_shift. cbn [f_alts f_cur]. now rewrite app_nil_r.
Qed.

(** * Numbers *)
Definition digit_set (f : format) : list (N * N) :=
  match f with
  | Hex _ _ Any => [(65, 70); (97, 102); (48, 57)]%N
  | Hex _ _ Upper => [(65, 70); (48, 57)]%N
  | Hex _ _ Lower => [(97, 102); (48, 57)]%N
  | _ => [(48, 57)]%N
  end.
Definition sign_set : list (N * N) := [(45, 45); (43, 43)]%N.
Definition number_res (f : format) : list re :=
  let l := format_lang f in
  (if sign_ok l then [RRep 0 (Some 1) true (RSet (mkSet false sign_set))] else []) ++
  map (fun c => RSet (chr c)) (lprefix l) ++ [RRep (lo l) (Some (hi l)) true (RSet (mkSet false (digit_set f)))].
Definition number_toks (f : format) : list rtok :=
  let l := format_lang f in
  (if sign_ok l then [KSet (mkSet false sign_set); KPost 0 (Some 1) true] else []) ++
  map (fun c => KSet (chr c)) (lprefix l) ++ [KSet (mkSet false (digit_set f)); KPost (lo l) (Some (hi l)) true].
Lemma number_lex f : compiles (format_lang f) -> lex_all (number_text f) = Some (number_toks f).
Proof.
  unfold compiles. destruct f as [p|p|p pre c]; intros H.
  - cbn [format_lang lo hi] in H. do 40 (destruct p as [|p]; [vm_compute; reflexivity|]). exfalso. cbn in H. lia.
  - cbn [format_lang lo hi] in H. do 40 (destruct p as [|p]; [vm_compute; reflexivity|]). exfalso. cbn in H. lia.
  - destruct pre; cbn [format_lang lo hi] in H; destruct c;
      (do 33 (destruct p as [|p]; [vm_compute; reflexivity|]); exfalso; cbn in H; lia).
Qed.
Lemma number_flat f : compiles (format_lang f) -> flat (number_text f) (number_toks f) 0 (number_res f).
Proof.
  intros H. unfold flat. splits; [now apply number_lex| |].
  - destruct f as [p|p|p [] []]; reflexivity.
  - destruct f as [p|p|p [] c]; reflexivity.
Qed.
Lemma digit_set_class f x : in_ranges (digit_set f) x = true <-> dclass (format_lang f) x = true.
Proof.
  assert (B3 : forall a b c, (a || (b || c)) = true <-> ((b || c) || (a || c)) = true) by now intros [] [] [].
  destruct f as [p|p|p [] []]; cbn [digit_set format_lang dclass hex_class]; unfold in_ranges, is_dec, upper_hex, lower_hex; cbn [existsb fst snd];
    rewrite ?orb_false_r; try reflexivity; apply B3.
Qed.
Lemma lang_cat_app ci b e l1 l2 i j : lang ci b e (cat (l1 ++ l2)) i j <-> exists k, lang ci b e (cat l1) i k /\ lang ci b e (cat l2) k j.
Proof.
  revert i. induction l1 as [|r l1 IH]; intros i; cbn [app cat fold_right].
  - split; [intros H; exists i; split; [constructor|exact H]|]. intros (k & H & H2). inversion H; subst. exact H2.
  - fold (cat (l1 ++ l2)) (cat l1). split.
    + intros H. inversion H as [| | |? ? ? k ? H1 H2| | | |]; subst. apply IH in H2 as (k2 & A & C). exists k2. split; [|easy]. now apply lg_cat with k.
    + intros (k & H & H2). inversion H as [| | |? ? ? k2 ? H1 H3| | | |]; subst. apply lg_cat with k2; [easy|]. apply IH. eauto.
Qed.
Lemma lang_cat_one ci b e r i j : lang ci b e (cat [r]) i j <-> lang ci b e r i j.
Proof.
  split.
  - intros H. inversion H as [| | |? ? ? k ? H1 H2| | | |]; subst. inversion H2; subst. exact H1.
  - intros H. apply lg_cat with j; [exact H|constructor].
Qed.
Lemma sign_reads ci b e g i j : e <= length b -> lang ci b e (RRep 0 (Some 1) g (RSet (mkSet false sign_set))) i j <->
  exists s, (s = [] \/ s = [43%N] \/ s = [45%N]) /\ reads ci b e s i j.
Proof.
  intros Bd. rewrite rep_reads by easy. split.
  - intros (t & L & F & R). exists t. split; [|easy]. destruct t as [|x [|]]; [now left| |cbn in L; lia]. inversion F as [|? ? I _]; subst. clear -I.
    unfold in_ranges, sign_set in I. cbn [existsb fst snd] in I. rewrite orb_false_r, orb_true_iff, !andb_true_iff, !N.leb_le in I. right. destruct I; [right|left]; f_equal; lia.
  - intros (s & [->|[->| ->]] & R); eexists; (splits; [| | |exact R]); try (cbn; lia); repeat constructor.
Qed.
Lemma number_lang ci b e f i j : e <= length b -> i <= e ->
  lang ci b e (cat (number_res f)) i j <-> exists t, in_lang (format_lang f) t /\ i <= j /\ j <= e /\ Forall2 (alike ci) t (between b i j).
Proof.
  intros Bd L. unfold number_res. cbn zeta. rewrite lang_cat_app. setoid_rewrite lang_cat_app. setoid_rewrite cat_reads. setoid_rewrite lang_cat_one. setoid_rewrite rep_reads; [|exact Bd].
  split.
  - intros (k & S & k2 & P & ds & Ln & F & D).
    assert (Sg : exists sg, (sg = [] \/ sign_ok (format_lang f) = true /\ (sg = [43%N] \/ sg = [45%N])) /\ reads ci b e sg i k).
    { destruct (sign_ok (format_lang f)).
      - apply (proj1 (lang_cat_one _ _ _ _ _ _)) in S. apply sign_reads in S as (s & A & R); [|easy]. exists s. split; [|easy]. destruct A as [->|A]; auto.
      - inversion S; subst. exists []. split; [now left|constructor]. }
    destruct Sg as (sg & A & Rs). exists (sg ++ lprefix (format_lang f) ++ ds). split.
    + exists sg, ds. splits; auto; try lia. eapply Forall_impl; [|exact F]. intros x. apply digit_set_class.
    + apply reads_spec; auto. exact (reads_app _ _ _ _ _ _ _ _ Rs (reads_app _ _ _ _ _ _ _ _ P D)).
  - intros (t & (sg & ds & -> & A & F & Ln) & L1 & L2 & F2).
    assert (R : reads ci b e (sg ++ lprefix (format_lang f) ++ ds) i j) by (apply reads_spec; auto).
    assert (Split : forall u v i j, reads ci b e (u ++ v) i j -> exists k, reads ci b e u i k /\ reads ci b e v k j).
    { clear. induction u as [|x u IH]; intros v i j H; [exists i; split; [constructor|exact H]|]. inversion H as [|? y ? ? ? Li N Al R]; subst. apply IH in R as (k & R1 & R2). exists k. split; [|easy]. now apply rd_cons with y. }
    apply Split in R as (k & R1 & R2). apply Split in R2 as (k2 & R2 & R3). exists k. split.
    + destruct A as [->|[-> A]].
      * inversion R1; subst. destruct (sign_ok (format_lang f)); [|constructor]. apply (proj2 (lang_cat_one _ _ _ _ _ _)). apply sign_reads; [easy|]. exists []. split; [now left|constructor].
      * apply (proj2 (lang_cat_one _ _ _ _ _ _)). apply sign_reads; [easy|]. exists sg. auto.
    + exists k2. split; [easy|]. exists ds. splits; auto; try lia. eapply Forall_impl; [|exact F]. intros x. apply digit_set_class.
Qed.

(** * The parts *)
Definition part_text (q : part) : str :=
  match q with
  | QLit s => escape s
  | QRegex s => s
  | QMatch (MSubst v (Some s)) => named (v_text v) s
  | QMatch (MNumeric f v None) => format_pattern f (option_map v_text v)
  | _ => []
  end.
Definition part_caps (q : part) : list capt :=
  match q with
  | QMatch (MSubst v (Some _)) => [mkCapt v TyStr]
  | QMatch (MNumeric f (Some v) None) => [mkCapt v (TyNum f)]
  | _ => []
  end.
Lemma piece_caps ci b e q i j cs : piece ci b e q i j cs -> cs = map (fun c => (c, between b i j)) (part_caps q).
Proof. now destruct 1. Qed.
(** the group of the variable a part defines *)
Definition part_index (q : part) : list nat := map (fun _ => 1) (part_caps q).
Record part_ok (ci : bool) (q : part) (ts : list rtok) (n : nat) (rs : list re) : Prop := {
  po_flat : flat (part_text q) ts n rs;
  po_names : some_names (open_names ts) = part_names q;
  po_own : Forall2 (fun c k => nth_error (None :: open_names ts) k = Some (Some (v_text (k_name c)))) (part_caps q) (part_index q);
  po_run b e d i g j h : e <= length b -> i <= e -> run ci b e (cat (map (re_shift d) rs)) i g j h ->
    piece ci b e q i j (map (fun c => (c, between b i j)) (part_caps q)) /\ Forall (fun k => h (d + k) = Some (mkRange i j)) (part_index q);
  po_lang b e i j cs : e <= length b -> i <= e -> piece ci b e q i j cs -> lang ci b e (cat rs) i j }.

Lemma run_cat_one ci b e r i g j h : run ci b e (cat [r]) i g j h -> run ci b e r i g j h.
Proof. intros H. inversion H as [| | |? ? ? ? k h0 ? ? H1 H2| | | |]; subst. inversion H2; subst. exact H1. Qed.
Lemma regex_names_built s ts n f ci x : built s ts n f -> build ci s = Some x -> regex_names s = some_names (open_names ts).
Proof.
  intros (L & M & H) B. unfold regex_names, build in *. rewrite L in *. unfold parse_tokens in *. rewrite H in *. destruct (distinct _); [|discriminate]. reflexivity.
Qed.
Lemma group_names name ts : some_names (open_names (opened name :: ts ++ [KClose])) = match name with Some n => [n] | None => [] end ++ some_names (open_names ts).
Proof.
  unfold open_names. cbn [flat_map]. rewrite flat_map_app. cbn [flat_map]. rewrite app_nil_r. unfold some_names. rewrite flat_map_app. f_equal. now destruct name.
Qed.
Lemma piece_text_ok ci b e q i j : e <= length b -> i <= e -> piece ci b e q i j [] -> i <= j <= e.
Proof.
  intros B L H. inversion H as [? ? L2| ? ? ? ? _ H2| | |]; subst; try lia. apply (proj1 (lang_bounds _ _ _)) in H2 as [A C]. auto.
Qed.
(** a definition: a group around the text *)
Lemma group_ok ci q name s ts n f : (match name with Some nm => identifier nm | None => True end) -> built s ts n f ->
  part_text q = group_text name s ->
  part_names q = match name with Some nm => [nm] | None => [] end ++ some_names (open_names ts) ->
  Forall2 (fun c nm => v_text (k_name c) = nm) (part_caps q) (match name with Some nm => [nm] | None => [] end) ->
  (forall b e i j cs, e <= length b -> i <= e -> (piece ci b e q i j cs <-> lang ci b e (alt f) i j /\ cs = map (fun c => (c, between b i j)) (part_caps q))) ->
  exists ts n rs, part_ok ci q ts n rs.
Proof.
  intros I H T N O P. pose proof (group_flat name s ts n f I H) as F.
  eexists _, _, _. split.
  - rewrite T. exact F.
  - now rewrite group_names, N.
  - unfold part_index. destruct (part_caps q) as [|c l]; [constructor|]. destruct name as [nm|]; inversion O as [|? ? ? ? E O2]; subst. inversion O2; subst. cbn. repeat constructor.
  - intros b e d i g j h B L R. cbn [map] in R. apply run_cat_one in R. split.
    + apply P; auto. split; [|easy]. apply (proj1 (run_lang _ _ _)) in R. apply shift_lang in R. destruct name; cbn [group_re] in R.
      * inversion R as [| | | | | | |? ? ? ? ? R2]; subst. now apply shift_lang in R2.
      * now apply shift_lang in R.
    + unfold part_index. destruct (part_caps q) as [|c l]; [constructor|]. destruct name as [nm|]; inversion O as [|? ? ? ? E O2]; subst. inversion O2; subst. cbn [map].
      constructor; [|constructor]. cbn [group_re re_shift] in R. inversion R; subst. unfold set_cap. now rewrite Nat.eqb_refl.
  - intros b e i j cs B L Hp. apply P in Hp as [Hp _]; auto. apply (proj2 (lang_cat_one _ _ _ _ _ _)). destruct name; cbn [group_re].
    + apply lg_group. now apply shift_lang.
    + now apply shift_lang.
Qed.
Lemma static_ok ci q : static ci q -> exists ts n rs, part_ok ci q ts n rs.
Proof.
  destruct 1 as [t|s x Bx A|v s x Bx Id|f C|f v C Id].
  - exists (map (fun c => KSet (chr c)) t), 0, (map (fun c => RSet (chr c)) t).
    assert (E : forall t, open_names (map (fun c => KSet (chr c)) t) = []) by (intros u; induction u; cbn; auto).
    assert (SH : forall d, map (re_shift d) (map (fun c => RSet (chr c)) t) = map (fun c => RSet (chr c)) t).
    { intros d. rewrite map_map. reflexivity. }
    split.
    + unfold flat. cbn [part_text]. splits; [apply escape_lex|destruct t as [|c t]; [exact I|]|].
      * cbn [escape flat_map]. destruct (is_meta c) eqn:M; [reflexivity|]. cbn. destruct (N.eqb_spec c 63) as [->|]; [discriminate|reflexivity].
      * assert (G : forall t cur, steps (map (fun c => KSet (chr c)) t) (0, [mkFrame None [] cur]) = Some (0, [mkFrame None [] (rev (map (fun c => RSet (chr c)) t) ++ cur)])).
        { clear. induction t as [|c t IH]; intros cur; [reflexivity|]. cbn [map steps step]. unfold push. cbn [f_group f_alts f_cur]. rewrite IH. cbn [rev map]. now rewrite <- app_assoc. }
        rewrite G, app_nil_r. reflexivity.
    + rewrite E. reflexivity.
    + constructor.
    + intros b e d i g j h B L R. rewrite SH in R. apply (proj1 (run_lang _ _ _)) in R. apply cat_reads in R. split; [|constructor]. cbn. now apply reads_piece.
    + intros b e i j cs B L Hp. apply cat_reads. pose proof (piece_caps _ _ _ _ _ _ _ Hp) as ->. now apply reads_piece in Hp.
  - destruct (build_built _ _ _ Bx) as (ts & n & f & H & ->). cbn [x_re] in A.
    assert (Al : f_alts f = []).
    { destruct (f_alts f) as [|a l] eqn:E; [easy|]. exfalso. unfold alt in A. rewrite E in A. cbn [fold_left] in A. clear E.
      revert A. generalize a, (cat (rev (f_cur f))). induction l as [|a' l IH]; intros a0 c A; cbn [fold_left] in A; [eapply A; reflexivity|eapply IH; exact A]. }
    exists ts, n, (rev (f_cur f)). assert (X : alt f = cat (rev (f_cur f))) by (unfold alt; now rewrite Al). split.
    + now apply built_flat.
    + cbn [part_names]. symmetry. eapply regex_names_built; eauto.
    + constructor.
    + intros b e d i g j h B L R. split; [|constructor]. cbn. eapply pc_regex; [exact Bx|]. cbn [x_re]. rewrite X. rewrite <- cat_shift in R. apply (proj1 (run_lang _ _ _)) in R. now apply shift_lang in R.
    + intros b e i j cs B L Hp. inversion Hp as [|? ? ? ? Bx2 Hl| | |]; subst. rewrite Bx in Bx2. injection Bx2 as <-. cbn [x_re] in Hl. now rewrite X in Hl.
  - destruct (build_built _ _ _ Bx) as (ts & n & f & H & ->).
    apply (group_ok ci _ (Some (v_text v)) s ts n f); auto.
    + cbn [part_names app]. f_equal. eapply regex_names_built; eauto.
    + repeat constructor.
    + intros b e i j cs B L. split.
      * intros Hp. inversion Hp as [| |? ? ? ? ? Bx2 Hl| |]; subst. rewrite Bx in Bx2. injection Bx2 as <-. auto.
      * intros [Hl ->]. cbn. eapply pc_def; eauto.
  - pose proof (number_flat _ C) as (L1 & M1 & H1).
    apply (group_ok ci _ None (number_text (format_of f)) (number_toks (format_of f)) 0 (mkFrame None [] (rev (number_res (format_of f))))).
    + exact I.
    + split; auto.
    + reflexivity.
    + cbn [part_names app]. destruct (format_of f) as [p|p|p [] c]; reflexivity.
    + constructor.
    + intros b e i j cs B L. unfold alt. cbn [f_alts f_cur fold_left]. rewrite rev_involutive, number_lang by auto. split.
      * intros Hp. inversion Hp; subst. split; [eauto|reflexivity].
      * intros [(t & It & L2 & L3 & F) ->]. cbn. econstructor; eauto.
  - pose proof (number_flat _ C) as (L1 & M1 & H1).
    apply (group_ok ci _ (Some (v_text v)) (number_text (format_of f)) (number_toks (format_of f)) 0 (mkFrame None [] (rev (number_res (format_of f))))).
    + exact Id.
    + split; auto.
    + reflexivity.
    + cbn [part_names app]. destruct (format_of f) as [p|p|p [] c]; reflexivity.
    + repeat constructor.
    + intros b e i j cs B L. unfold alt. cbn [f_alts f_cur fold_left]. rewrite rev_involutive, number_lang by auto. split.
      * intros Hp. inversion Hp; subst. split; [eauto|reflexivity].
      * intros [(t & It & L2 & L3 & F) ->]. cbn. econstructor; eauto.
Qed.
