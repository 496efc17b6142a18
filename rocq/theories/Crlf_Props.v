(** C49: Windows line ends. *)
From Coq Require Import String.
From Verif Require Import Base Text_Model Text_Spec Text_Proofs Cursor_Model Cursor_Spec Cursor_Proofs
  Check_Model Program_Model Check_Spec Check_Proofs Program_Proofs Accept_Proofs File_Spec File_Proofs File_Props
  Compose_Proofs Lit_Model Lit_Spec Lit_Proofs Lit_Props Lit_Examples Crlf_Spec Crlf_Proofs.
Notation length := List.length.
Open Scope string_scope. Open Scope list_scope.

Section Accepts.
Variable b : bytes.
Variable ci : bool.
Notation phi := (moved b).
Notation b' := (crlf b).
Notation LL := (lit_lang ci).
Notation n := (length b).

Lemma found_moved p s e en i' en' : clean p -> s <= e <= n ->
  found (L:=LL) b' p (phi s) (phi e) en i' en' <-> exists i, found (L:=LL) b p s e en i en' /\ i' = relocated b i.
Proof.
  intros C H. unfold found. cbn [pm lit_lang pat env]. rewrite lit_match_moved by auto. destruct (lit_match ci p b (mkRange s e)) as [ty [i|]]; cbn [moved_res m_ty m_info option_map]; split.
  - intros (m & [= <- <-] & T & [= <-]). exists i. split; auto. eexists. split; [reflexivity|]. auto.
  - intros (j & (m & [= <- <-] & T & [= <-]) & ->). eexists. split; [reflexivity|]. auto.
  - intros (m & [= <- <-] & T & [=]).
  - intros (j & (m & [= <- <-] & T & [=]) & _).
Qed.
Lemma found_in p s e en i en' : found (L:=LL) b p s e en i en' -> s <= e <= n -> s <= rstart (i_span i) <= rend (i_span i) /\ rend (i_span i) <= e.
Proof. intros F H. apply found_lit in F as (k & ((A & B & _) & _) & ->); [|lia]. cbn. cbn in B. lia. Qed.
Lemma absent_moved ps s e en : Forall clean ps -> s <= e <= n -> absent (L:=LL) b' ps (phi s) (phi e) en <-> absent (L:=LL) b ps s e en.
Proof.
  intros C H. unfold absent. cbn [nm lit_lang pat env]. rewrite lit_any_moved by auto.
  split; (intros [X|(m & en' & [= <- <-] & X)]; [now left|right; eexists _, _; split; [reflexivity|exact X]]).
Qed.
Lemma infos_moved ms : infos (map (moved_res b) ms) = map (relocated b) (infos ms).
Proof. induction ms as [|m ms IH]; cbn [map infos]; auto. destruct m as [ty [i|]]; cbn [moved_res m_info option_map map]; now rewrite IH. Qed.
Lemma ms_ok_moved ms : ms_ok (map (moved_res b) ms) = ms_ok ms.
Proof. unfold ms_ok. induction ms as [|m ms IH]; cbn [map forallb]; auto. now rewrite IH. Qed.
Lemma dm_moved ds s e en ms' en' stop' : Forall clean ds -> s <= e <= n ->
  dm (l:=LL) ds b' (mkRange (phi s) (phi e)) en = Val (ms', en', stop') <->
  exists ms stop, dm (l:=LL) ds b (mkRange s e) en = Val (ms, en', stop) /\ ms' = map (moved_res b) ms /\ stop' = option_map phi stop.
Proof.
  intros C H. cbn [dm lit_lang pat env]. rewrite lit_dag_moved by auto. destruct (lit_dag ds b (mkRange s e)) as [[ms stop]| |]; cbn [moved_dag bind]; split; intros X; try discriminate.
  - injection X as <- <- <-. eauto.
  - destruct X as (ms0 & stop0 & [= <- <- <-] & -> & ->). reflexivity.
  - destruct X as (ms0 & stop0 & X & _). discriminate.
  - destruct X as (ms0 & stop0 & X & _). discriminate.
Qed.
Lemma first_start_moved is : first_start (map (relocated b) is) = phi (first_start is).
Proof. destruct is; reflexivity. Qed.
Lemma last_end_moved is : forall pos, last_end (phi pos) (map (relocated b) is) = phi (last_end pos is).
Proof. induction is as [|i is IH]; intros pos; cbn [map last_end]; auto. apply IH. Qed.

Lemma fires_moved p : clean p -> forall k pos en is' en', k = KPlain \/ (exists m, k = KCount m) -> pos <= n ->
  fires (L:=LL) b' (phi n) k p (phi pos) en is' en' <->
  exists is, fires (L:=LL) b n k p pos en is en' /\ is' = map (relocated b) is.
Proof.
  intros C. assert (PL : forall pos en is' en' (K : list minfo -> Prop), pos <= n -> (forall is, K is <-> exists i, found (L:=LL) b p pos n en i en' /\ is = [i]) ->
    (exists i', found (L:=LL) b' p (phi pos) (phi n) en i' en' /\ is' = [i']) <-> exists is, K is /\ is' = map (relocated b) is).
  { intros pos en is' en' K P HK. split.
    - intros (i' & F & ->). apply found_moved in F as (i & F & ->); auto. exists [i]. split; auto. apply HK. eauto.
    - intros (is & X & ->). apply HK in X as (i & F & ->). exists (relocated b i). split; auto. apply found_moved; eauto. }
  assert (CN : forall m pos en is' en', pos <= n -> fires (L:=LL) b' (phi n) (KCount m) p (phi pos) en is' en' <->
    exists is, fires (L:=LL) b n (KCount m) p pos en is en' /\ is' = map (relocated b) is).
  { induction m as [|m IH]; intros pos en is' en' P; [split; [intros F|intros (is & F & _)]; inversion F|]. destruct m as [|m].
    - rewrite <- (PL pos en is' en' (fun is => fires (L:=LL) b n (KCount 1) p pos en is en') P); clear IH; [split|intros is; split].
      + intros F. inversion F; subst. eauto.
      + intros (i' & F & ->). now constructor.
      + intros F. inversion F; subst. eauto.
      + intros (i & F & ->). now constructor.
    - split.
      + intros F. inversion F as [| | | | | |? ? ? ? i en1 is1 ? F1 F2]; subst. apply found_moved in F1 as (j & F1 & ->); auto.
        cbn [relocated i_span rend] in F2. pose proof (found_in _ _ _ _ _ _ F1 ltac:(lia)). apply IH in F2 as (is2 & F2 & ->); [|lia]. exists (j :: is2). split; [econstructor; eauto|reflexivity].
      + intros (is & F & ->). inversion F as [| | | | | |? ? ? ? i en1 is1 ? F1 F2]; subst. cbn [map]. pose proof (found_in _ _ _ _ _ _ F1 ltac:(lia)). econstructor.
        * apply found_moved; eauto.
        * cbn [relocated i_span rend]. apply IH; [lia|]. eauto. }
  intros k pos en is' en' [->|(m & ->)] P; [|auto].
  rewrite <- (PL pos en is' en' (fun is => fires (L:=LL) b n KPlain p pos en is en') P).
  - split; [intros F; inversion F; subst; eauto|intros (i & F & ->); now constructor].
  - intros is. split; [intros F; inversion F; subst; eauto|intros (i & F & ->); now constructor].
Qed.
Lemma fires_in p k pos en is en' : k = KPlain \/ (exists m, k = KCount m) -> pos <= n -> fires (L:=LL) b n k p pos en is en' ->
  pos <= first_start is <= last_end pos is /\ last_end pos is <= n.
Proof.
  intros K P F. revert P K. induction F; intros P K; try (destruct K as [K|(m & K)]; discriminate); pose proof (found_in _ _ _ _ _ _ H ltac:(lia)) as I; cbn [first_start last_end] in *; try lia.
  destruct IHF as (A & B); [lia|right; eauto|]. lia.
Qed.
Lemma dm_in ds pos en ms en1 stop : ds <> [] -> pos <= n -> dm (l:=LL) ds b (mkRange pos n) en = Val (ms, en1, stop) -> ms_ok ms = true ->
  infos ms <> [] /\ pos <= first_start (infos ms) <= last_end pos (infos ms) /\ last_end pos (infos ms) <= n.
Proof.
  intros NE P D OK. destruct (ok_dm _ (lit_lang_ok ci) ds b pos n en) as (ms0 & en0 & pos0 & D0 & H); auto. rewrite D in D0. injection D0 as <- <- <-.
  destruct (H OK) as (N & G & IO & _). clear -N G IO P. 
  assert (NI : infos ms <> []).
  { destruct ms as [|m ms]; [congruence|]. inversion G as [|? ? (T & i & I & _) _]; subst. cbn. rewrite I. discriminate. }
  assert (BD : forall i, In i (infos ms) -> rend (i_span i) <= n).
  { clear -G. induction G as [|m ms (T & i & I & R) G IH]; cbn [infos]; [intros i []|]. rewrite I. intros j [<-|J]; [cbn in R; lia|auto]. }
  split; auto. clear G N. revert pos IO P. induction (infos ms) as [|i is IH]; [congruence|]. intros pos [A B] P. cbn [first_start last_end].
  destruct is as [|j is]; [cbn; split; [lia|apply BD; now left]|].
  destruct (IH ltac:(discriminate) ltac:(intros; apply BD; now right) (rend (i_span i)) B ltac:(apply BD; now left)) as (X & Y). cbn [first_start last_end] in *. lia.
Qed.

Definition plain_line (l : line LL) : Prop := l_kind l <> KLabel /\ ~ relative (l_kind l) /\ clean (l_pat l).
Lemma plain_kind (l : line LL) : plain_line l -> l_kind l <> KNot -> l_kind l <> KDag -> l_kind l = KPlain \/ (exists m, l_kind l = KCount m).
Proof. intros (A & B & _) C D. unfold relative in B. destruct (l_kind l); eauto; tauto. Qed.
Lemma dags_clean ds (ls : list (line LL)) : Forall plain_line (map (mkLine (L:=LL) KDag) ds ++ ls) -> Forall clean ds /\ Forall plain_line ls.
Proof. intros F. apply Forall_app in F as [F1 F2]. split; auto. rewrite Forall_map in F1. eapply Forall_impl; [|exact F1]. intros p (_ & _ & H). exact H. Qed.

Lemma accepts_to ls nots strict pos en out en' : accepts (L:=LL) b n ls nots strict pos en out en' -> Forall plain_line ls -> Forall clean nots -> pos <= n ->
  accepts (L:=LL) b' (phi n) ls nots strict (phi pos) en (map (relocated b) out) en'.
Proof.
  induction 1 as [nots strict pos en H|p ls nots strict pos en out en' H IH|k p ls nots strict pos en is en1 out en' F AB ST H IH|ds ls nots strict pos en ms en1 stop out en' NE HK D OK AB touch TO H IH]; intros PL CL P.
  - constructor. apply absent_moved; auto.
  - constructor. inversion PL as [|? ? (_ & _ & C) PL']; subst. apply IH; auto. apply Forall_app. auto.
  - inversion PL as [|? ? X PL']; subst. pose proof X as (_ & _ & C). cbn in C. rewrite map_app.
    assert (K : k = KPlain \/ (exists m, k = KCount m)).
    { apply (plain_kind _ X); cbn; intros ->; inversion F. }
    pose proof (fires_in _ _ _ _ _ _ K P F) as R. econstructor.
    + apply fires_moved; eauto.
    + rewrite first_start_moved. apply absent_moved; auto. lia.
    + intros S. rewrite first_start_moved. apply moved_lt; [auto|lia].
    + rewrite last_end_moved. apply IH; auto. lia.
  - destruct (dags_clean _ _ PL) as (CD & PL'). pose proof (dm_in _ _ _ _ _ _ NE P D OK) as (NI & R). rewrite map_app, <- infos_moved. eapply A_dag; eauto.
    + apply dm_moved; eauto.
    + now rewrite ms_ok_moved.
    + rewrite infos_moved, first_start_moved. apply absent_moved; auto. lia.
    + rewrite infos_moved, last_end_moved. apply IH; auto. lia.
Qed.
Lemma accepts_from ls nots strict pos' en out' en' : accepts (L:=LL) b' (phi n) ls nots strict pos' en out' en' -> forall pos, pos' = phi pos -> Forall plain_line ls -> Forall clean nots -> pos <= n ->
  exists out, accepts (L:=LL) b n ls nots strict pos en out en' /\ out' = map (relocated b) out.
Proof.
  induction 1 as [nots strict pos' en H|p ls nots strict pos' en out en' H IH|k p ls nots strict pos' en is en1 out en' F AB ST H IH|ds ls nots strict pos' en ms en1 stop out en' NE HK D OK AB touch TO H IH]; intros pos -> PL CL P.
  - exists []. split; auto. constructor. apply absent_moved; auto.
  - inversion PL as [|? ? (_ & _ & C) PL']; subst. destruct (IH pos eq_refl PL') as (o & A & ->); auto; [apply Forall_app; auto|]. exists o. split; auto. now constructor.
  - inversion PL as [|? ? X PL']; subst. pose proof X as (_ & _ & C). cbn in C.
    assert (K : k = KPlain \/ (exists m, k = KCount m)).
    { apply (plain_kind _ X); cbn; intros ->; inversion F. }
    apply fires_moved in F as (is0 & F & ->); auto. pose proof (fires_in _ _ _ _ _ _ K P F) as R. rewrite last_end_moved in *. rewrite first_start_moved in *.
    destruct (IH _ eq_refl PL') as (o & A & ->); auto; [lia|]. exists (is0 ++ o). rewrite map_app. split; auto. econstructor; eauto.
    + apply absent_moved in AB; auto. lia.
    + intros S. apply moved_lt_iff with (b := b); auto; lia.
  - destruct (dags_clean _ _ PL) as (CD & PL'). apply dm_moved in D as (ms0 & stop0 & D & -> & ->); auto. rewrite ms_ok_moved in OK.
    pose proof (dm_in _ _ _ _ _ _ NE P D OK) as (NI & R). rewrite infos_moved in *. rewrite last_end_moved in *. rewrite first_start_moved in *.
    destruct (IH _ eq_refl PL') as (o & A & ->); auto; [lia|]. exists (infos ms0 ++ o). rewrite map_app. split; auto. eapply A_dag; eauto. apply absent_moved in AB; auto. lia.
Qed.
End Accepts.

Lemma passes_with_implicit ci allow imp ls b out : line_free ls -> flat_ok ls -> b <> [] \/ allow = true -> ls <> [] \/ imp <> None ->
  passes ci allow imp ls b out <-> accepts (L:=lit_lang ci) b (length b) (with_implicit (L:=lit_lang ci) imp ls) [] false 0 tt out tt.
Proof.
  intros A1 A2 A3 A4. destruct (Free_Proofs.filecheck_free (lit_lang_ok ci) allow imp ls b tt A1 (flat_file_ok ls A2) A3 A4) as [H1 H2]. unfold passes. split.
  - intros (t & T & E & <-). destruct (H2 t T E) as ([] & A). exact A.
  - intros A. exact (H1 out tt A).
Qed.
(** C49, for check files without CHECK-NEXT, CHECK-SAME, CHECK-EMPTY and labels whose texts are inside
    one line: an input with Windows line ends passes exactly when the one without does, and the matches
    reported are the same, moved by the carriage returns before them. *)
Theorem C49_line_ends_partial ci allow imp (ls : list (line (lit_lang ci))) b out' : flat_ok ls -> line_free ls ->
  (forall l, In l ls -> one_line (lit_text (l_pat l))) -> (forall q, imp = Some q -> one_line (lit_text q)) -> ls <> [] \/ imp <> None ->
  passes ci allow imp ls (crlf b) out' <-> exists out, passes ci allow imp ls b out /\ out' = map (relocated b) out.
Proof.
  intros A1 A2 A3 A4 A5.
  assert (E : b <> [] \/ allow = true \/ b = [] /\ allow = false) by (destruct b; [destruct allow; auto|left; discriminate]). rewrite <- or_assoc in E. destruct E as [E|[-> ->]].
  2:{ assert (N : forall out, ~ passes ci false imp ls [] out).
      { intros out (t & T & X & _). unfold filecheck in T. destruct (compile (L:=lit_lang ci) imp ls); try discriminate. cbn in T. injection T as <-. discriminate. }
      split; [intros H; destruct (N _ H)|intros (out & H & _); destruct (N _ H)]. }
  assert (E' : crlf b <> [] \/ allow = true).
  { destruct E as [E|E]; auto. left. destruct b as [|x r]; [congruence|]. cbn. destruct (N.eqb x LF); discriminate. }
  rewrite passes_with_implicit by auto.
  assert (PL : Forall (plain_line ci) (with_implicit (L:=lit_lang ci) imp ls)).
  { apply Forall_forall. intros l I. split; [|split].
    - assert (U : unlabelled (with_implicit (L:=lit_lang ci) imp ls)) by (apply with_implicit_unlabelled; intros x X; apply (A1 x X)).
      unfold unlabelled in U. rewrite Forall_forall in U. exact (U l I).
    - exact (Free_Proofs.line_free_implicit (L:=lit_lang ci) imp ls A2 l I).
    - unfold with_implicit in I. apply in_app_or in I as [I|I].
      + destruct imp as [q|]; [|destruct I]. destruct I as [<-|[]]. apply (A4 q eq_refl).
      + apply in_flat_map in I as (x & X & [<-|I]); [apply (A3 x X)|]. destruct (l_kind x), imp as [q|]; cbn in I; try contradiction; destruct I as [<-|[]]; apply (A4 q eq_refl). }
  rewrite <- (moved_len b). change 0 with (moved b 0) at 1. split.
  - intros H. apply accepts_from with (pos := 0) in H; auto; [|lia]. destruct H as (out & A & ->). exists out. split; auto. apply passes_with_implicit; auto.
  - intros (out & A & ->). apply passes_with_implicit in A; auto. apply accepts_to; auto. lia.
Qed.

(** C49 is false with CHECK-EMPTY: the empty line is not seen. *)
Theorem C49_empty_refuted : exists ls b out, passes false false None ls b out /\ (forall out', ~ passes false false None ls (crlf b) out') /\
  flat_ok ls /\ anchored ls.
Proof.
  exists [dir KPlain "a" 1; dir KEmpty "" 2; dir KNext "b" 3], (of_string ("a" ++ nl ++ nl ++ "b")). eexists. splits.
  - eexists. split; [vm_compute; reflexivity|split; reflexivity].
  - intros out' (t & T & E & _). vm_compute in T. injection T as <-. discriminate.
  - intros l [<-|[<-|[<-|[]]]]; split; discriminate.
  - intros [|x pre] l post EQ D; injection EQ as <- EQ; [destruct D as [D|[D|D]]; discriminate|]. exists (dir KPlain "a" 1). split; [now left|now left].
Qed.
(** C49 is false with CHECK-NEXT: checking even aborts. *)
Theorem C49_next_refuted : exists ls b out, passes false false None ls b out /\ filecheck (L:=lit_lang false) false None ls (crlf b) tt = Panic /\
  flat_ok ls /\ anchored ls.
Proof.
  exists [dir KPlain "a" 1; dir KNext "b" 2; dir KNext "c" 3], (of_string ("a" ++ nl ++ "b" ++ nl ++ "c")). eexists. splits.
  - eexists. split; [vm_compute; reflexivity|split; reflexivity].
  - vm_compute. reflexivity.
  - intros l [<-|[<-|[<-|[]]]]; split; discriminate.
  - intros [|x pre] l post EQ D; injection EQ as <- EQ; [destruct D as [D|[D|D]]; discriminate|]. exists (dir KPlain "a" 1). split; [now left|now left].
Qed.
(** C49 is false of a text that ends a line: it needs the carriage return. *)
Theorem C49_text_refuted : exists ls b out, passes false false None ls b out /\ (forall out', ~ passes false false None ls (crlf b) out') /\ line_free ls.
Proof.
  exists [dir KPlain ("a" ++ nl)%string 1], (of_string ("a" ++ nl)). eexists. splits.
  - eexists. split; [vm_compute; reflexivity|split; reflexivity].
  - intros out' (t & T & E & _). vm_compute in T. injection T as <-. discriminate.
  - intros l [<-|[]] [D|[D|D]]; discriminate.
Qed.
Example C49_hyp : let ls := [dir (KCount 2) "a" 1; dir KNot "z" 2; dir KDag "c" 3; dir KDag "b" 4; dir KPlain "d" 5] in let b := of_string ("a" ++ nl ++ "a" ++ nl ++ "b" ++ nl ++ nl ++ "c" ++ nl ++ " d") in
  flat_ok ls /\ line_free ls /\ (forall l, In l ls -> one_line (lit_text (l_pat l))) /\ (exists out, passes false false None ls b out) /\ (exists out, passes false false None ls (crlf b) out) /\
  crlf b <> b.
Proof.
  cbv zeta. splits.
  - intros l I. repeat destruct I as [<-|I]; try (split; discriminate). destruct I.
  - intros l I. repeat destruct I as [<-|I]; try (intros [D|[D|D]]; discriminate). destruct I.
  - intros l I. repeat destruct I as [<-|I]; try (split; intros [D|[]]; discriminate). destruct I.
  - eexists _, _. split; [vm_compute; reflexivity|split; reflexivity].
  - eexists _, _. split; [vm_compute; reflexivity|split; reflexivity].
  - vm_compute. discriminate.
Qed.
Print Assumptions C49_line_ends_partial.
Print Assumptions C49_empty_refuted.
Print Assumptions C49_next_refuted.
Print Assumptions C49_text_refuted.
