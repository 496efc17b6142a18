(** Concatenating texts of regular expressions: the groups of the second are numbered on, and what it
    matches does not change. *)
From Verif Require Import Base Text_Model Lit_Model Regex_Model Regex_Spec Regex_Proofs Regex_Engine.
Open Scope list_scope.
Notation length := List.length.

(** the groups numbered from [d] on *)
Fixpoint re_shift (d : nat) (r : re) : re :=
  match r with
  | RCat x y => RCat (re_shift d x) (re_shift d y)
  | RAlt x y => RAlt (re_shift d x) (re_shift d y)
  | RRep lo hi g x => RRep lo hi g (re_shift d x)
  | RGroup k n x => RGroup (d + k) n (re_shift d x)
  | REps => REps | RSet s => RSet s | RLook l => RLook l
  end.
Definition frame_shift (d : nat) (f : frame) : frame :=
  mkFrame (option_map (fun p => (d + fst p, snd p)) (f_group f)) (map (re_shift d) (f_alts f)) (map (re_shift d) (f_cur f)).
Lemma cat_shift d rs : re_shift d (cat rs) = cat (map (re_shift d) rs).
Proof. unfold cat. induction rs as [|r rs IH]; [reflexivity|]. cbn [fold_right map re_shift]. now rewrite IH. Qed.
Lemma alt_shift d f : re_shift d (alt f) = alt (frame_shift d f).
Proof.
  unfold alt, frame_shift. cbn [f_alts f_cur]. rewrite <- map_rev, <- cat_shift. generalize (cat (rev (f_cur f))).
  induction (f_alts f) as [|a l IH]; intros r; [reflexivity|]. cbn. now rewrite IH.
Qed.
Lemma close_shift d f : re_shift d (close_frame f) = close_frame (frame_shift d f).
Proof. unfold close_frame. destruct f as [[[k n]|] a c]; cbn [f_group frame_shift option_map fst snd]; [cbn [re_shift]; f_equal|]; apply alt_shift. Qed.

Lemma lang_shift ci b e d : (forall r i j, lang ci b e r i j -> lang ci b e (re_shift d r) i j) /\
  (forall r n i j, lang_n ci b e r n i j -> lang_n ci b e (re_shift d r) n i j).
Proof.
  apply lang_mutind; intros; cbn [re_shift]; try (now econstructor; eauto).
Qed.
Lemma lang_unshift ci b e d r : forall i j, (lang ci b e (re_shift d r) i j -> lang ci b e r i j).
Proof.
  induction r as [| | |x IHx y IHy|x IHx y IHy|lo hi g x IHx|k n x IHx]; cbn [re_shift]; intros i j H; inversion H; subst; clear H.
  - constructor.
  - econstructor; eauto.
  - now constructor.
  - econstructor; eauto.
  - apply lg_left. auto.
  - apply lg_right. auto.
  - econstructor; [eassumption|assumption|]. match goal with H : lang_n _ _ _ _ ?n _ _ |- _ => rename H into L; clear - IHx L; revert i L; induction n as [|n IH]; intros i L; inversion L; subst; econstructor; eauto end.
  - constructor. auto.
Qed.
Lemma shift_lang ci b e d r i j : lang ci b e (re_shift d r) i j <-> lang ci b e r i j.
Proof. split; [apply lang_unshift|apply (proj1 (lang_shift ci b e d))]. Qed.

(** * Running the tokens of a text on top of others *)
(** [f] on top of [g]: what follows in the same group *)
Definition onto (d : nat) (f g : frame) : frame :=
  mkFrame (f_group g) (map (re_shift d) (f_alts f)) (map (re_shift d) (f_cur f) ++ f_cur g).
Definition quiet (f g : frame) : Prop := f_cur g = [] \/ f_alts f = [].

(** the bottom frame of a state *)
Inductive bottomed : list frame -> list frame -> frame -> Prop :=
| bo_one f : bottomed [f] [] f
| bo_more x l fs f : bottomed l fs f -> bottomed (x :: l) (x :: fs) f.
Lemma bottomed_app l : forall fs f, bottomed l fs f <-> l = fs ++ [f].
Proof.
  intros fs f. split.
  - intros B. induction B; [reflexivity|]. cbn. now rewrite IHB.
  - revert l. induction fs as [|x fs IH]; intros l ->; cbn; constructor. now apply IH.
Qed.
(** alternatives of the bottom frame stay *)
Lemma step_alts n fs f t n' fs' f' : step (n, fs ++ [f]) t = Some (n', fs' ++ [f']) -> f_alts f' = [] -> f_alts f = [].
Proof.
  intros H A. destruct fs as [|x fs]; cbn [app step] in H.
  - destruct t as [s|l|[name|]| | |lo hi g].
    + injection H as _ H. apply (app_inj_tail [] fs') in H as [_ <-]. exact A.
    + injection H as _ H. apply (app_inj_tail [] fs') in H as [_ <-]. exact A.
    + injection H as _ H. change [?a; f] with ([a] ++ [f]) in H. apply (app_inj_tail [_] fs') in H as [_ <-]. exact A.
    + injection H as _ H. apply (app_inj_tail [_] fs') in H as [_ <-]. exact A.
    + discriminate.
    + injection H as _ H. apply (app_inj_tail [] fs') in H as [_ <-]. discriminate.
    + destruct (f_cur f); [discriminate|]. injection H as _ H. apply (app_inj_tail [] fs') in H as [_ <-]. exact A.
  - assert (K : forall l : list frame, l ++ [f] = fs' ++ [f'] -> f_alts f = []).
    { intros l E. apply app_inj_tail in E as [_ <-]. exact A. }
    destruct t as [s|l|[name|]| | |lo hi g].
    + injection H as _ H. apply (K (push (RSet s) x :: fs)). exact H.
    + injection H as _ H. apply (K (push (RLook l) x :: fs)). exact H.
    + injection H as _ H. eapply (K (_ :: x :: fs)). exact H.
    + injection H as _ H. eapply (K (_ :: x :: fs)). exact H.
    + destruct fs as [|y fs]; cbn [app] in H.
      * injection H as _ H. apply (app_inj_tail [] fs') in H as [_ <-]. exact A.
      * injection H as _ H. eapply (K (_ :: fs)). exact H.
    + injection H as _ H. eapply (K (_ :: fs)). exact H.
    + destruct (f_cur x); [discriminate|]. injection H as _ H. eapply (K (_ :: fs)). exact H.
Qed.
Lemma step_bottom n fs f t st : step (n, fs ++ [f]) t = Some st -> exists n' fs' f', st = (n', fs' ++ [f']).
Proof.
  intros H. destruct fs as [|x fs]; cbn [app step] in H.
  - destruct t as [s|l|[name|]| | |lo hi g]; try (destruct (f_cur f); [discriminate|]); try discriminate; injection H as <-;
      first [eexists _, [], _; reflexivity | eexists _, [_], _; reflexivity].
  - destruct t as [s|l|[name|]| | |lo hi g]; try (destruct (f_cur x); [discriminate|]);
      try (injection H as <-; first [eexists _, (_ :: fs), _; reflexivity | eexists _, (_ :: x :: fs), _; reflexivity]).
    destruct fs as [|y fs]; cbn [app] in H; injection H as <-; [eexists _, [], _; reflexivity|eexists _, (_ :: fs), _; reflexivity].
Qed.
Lemma steps_alts ts : forall n fs f n' fs' f', steps ts (n, fs ++ [f]) = Some (n', fs' ++ [f']) -> f_alts f' = [] -> f_alts f = [].
Proof.
  induction ts as [|t ts IH]; intros n fs f n' fs' f' H A; cbn [steps] in H.
  - injection H as _ H. now apply app_inj_tail in H as [_ ->].
  - destruct (step _ t) as [st|] eqn:S1; [|discriminate]. destruct (step_bottom _ _ _ _ _ S1) as (n1 & fs1 & f1 & ->).
    apply (step_alts _ _ _ _ _ _ _ S1). eapply IH; eauto.
Qed.

(** one step, on top of the frames [g :: base], with [d] groups before *)
Definition over (d : nat) (g : frame) (base : list frame) (n : nat) (fs : list frame) (f : frame) : nat * list frame :=
  (d + n, map (frame_shift d) fs ++ onto d f g :: base).
Lemma step_over d g base n fs f t n' fs' f' : f_alts g = [] -> quiet f g -> quiet f' g ->
  step (n, fs ++ [f]) t = Some (n', fs' ++ [f']) -> step (over d g base n fs f) t = Some (over d g base n' fs' f').
Proof.
  intros A Q Q' H. unfold over. destruct fs as [|x fs]; cbn [app step map] in H |- *.
  - destruct t as [s|l|[name|]| | |lo hi gr].
    + injection H as <- H. apply (app_inj_tail [] fs') in H as [<- <-]. reflexivity.
    + injection H as <- H. apply (app_inj_tail [] fs') in H as [<- <-]. reflexivity.
    + injection H as <- H. apply (app_inj_tail [_] fs') in H as [<- <-]. cbn [map app frame_shift]. unfold frame_shift. cbn [f_group f_alts f_cur option_map fst snd map].
      replace (d + S n) with (S (d + n)) by lia. reflexivity.
    + injection H as <- H. apply (app_inj_tail [_] fs') in H as [<- <-]. reflexivity.
    + discriminate.
    + injection H as <- H. apply (app_inj_tail [] fs') in H as [<- <-]. cbn [map app]. unfold onto. cbn [f_group f_alts f_cur map].
      destruct Q' as [C|C]; [|discriminate]. rewrite C, !app_nil_r. rewrite <- map_rev, <- cat_shift. reflexivity.
    + destruct (f_cur f) as [|r rs] eqn:C; [discriminate|]. injection H as <- H. apply (app_inj_tail [] fs') in H as [<- <-]. unfold onto. rewrite C. reflexivity.
  - destruct t as [s|l|[name|]| | |lo hi gr].
    + injection H as <- H. apply (app_inj_tail (push (RSet s) x :: fs) fs') in H as [<- <-]. reflexivity.
    + injection H as <- H. apply (app_inj_tail (push (RLook l) x :: fs) fs') in H as [<- <-]. reflexivity.
    + injection H as <- H. apply (app_inj_tail (_ :: x :: fs) fs') in H as [<- <-]. cbn [map app]. unfold frame_shift at 3. cbn [f_group f_alts f_cur option_map fst snd map].
      replace (d + S n) with (S (d + n)) by lia. reflexivity.
    + injection H as <- H. apply (app_inj_tail (_ :: x :: fs) fs') in H as [<- <-]. reflexivity.
    + destruct fs as [|y fs]; cbn [app map] in H |- *.
      * injection H as <- H. apply (app_inj_tail [] fs') in H as [<- <-]. cbn [map app]. f_equal. f_equal. f_equal. unfold push, onto. cbn. now rewrite close_shift.
      * injection H as <- H. apply (app_inj_tail (_ :: fs) fs') in H as [<- <-]. cbn [map app]. f_equal. f_equal. f_equal. unfold push, frame_shift. cbn. now rewrite close_shift.
    + injection H as <- H. apply (app_inj_tail (_ :: fs) fs') in H as [<- <-]. cbn [map app]. f_equal. f_equal. f_equal. unfold frame_shift. cbn [f_group f_alts f_cur map].
      now rewrite cat_shift, map_rev.
    + destruct (f_cur x) as [|r rs] eqn:C; [discriminate|]. injection H as <- H. apply (app_inj_tail (_ :: fs) fs') in H as [<- <-]. unfold frame_shift at 1. cbn [f_cur f_group f_alts]. rewrite C. reflexivity.
Qed.
Lemma steps_over d g base ts : forall n fs f n' fs' f', f_alts g = [] -> (f_cur g = [] \/ f_alts f' = []) ->
  steps ts (n, fs ++ [f]) = Some (n', fs' ++ [f']) -> steps ts (over d g base n fs f) = Some (over d g base n' fs' f').
Proof.
  induction ts as [|t ts IH]; intros n fs f n' fs' f' A Q H; cbn [steps] in *.
  - injection H as <- H. apply app_inj_tail in H as [<- <-]. reflexivity.
  - destruct (step _ t) as [st|] eqn:S1; [|discriminate]. destruct (step_bottom _ _ _ _ _ S1) as (n1 & fs1 & f1 & ->).
    assert (Q1 : quiet f1 g). { destruct Q as [Q|Q]; [now left|right]. eapply steps_alts; eauto. }
    assert (Q0 : quiet f g). { destruct Q1 as [Q1|Q1]; [now left|right]. eapply step_alts; eauto. }
    rewrite (step_over d g base _ _ _ _ _ _ _ A Q0 Q1 S1). now apply IH.
Qed.
Lemma steps_app ts us st : steps (ts ++ us) st = match steps ts st with Some st' => steps us st' | None => None end.
Proof. revert st. induction ts as [|t ts IH]; intros st; [reflexivity|]. cbn. destruct (step st t); [apply IH|reflexivity]. Qed.
