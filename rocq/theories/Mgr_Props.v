(** C85: source managers and the pointers they return. *)
From Coq Require Import String.
From Verif Require Import Base Text_Model Cursor_Model Map_Model Source_Model Mgr_Model Mgr_Spec Mgr_Proofs.
Open Scope string_scope.
Open Scope list_scope.
Open Scope nat_scope.

(** C85: what a program sees, in every history of calls, is what it would see if every manager had its own copy of every document, and
    every pointer were a copy. *)
Theorem unshared_exact : forall cs, well_formed cs -> answers cs = unshared cs.
Proof. intros cs W. apply run_seen; [apply R_nothing|exact W]. Qed.

(** * Consequences, for every history *)
Fixpoint then_ (t : state) (cs : list call) : state := match cs with [] => t | c :: r => then_ (fst (does t c)) r end.
Lemma seen_nth cs : forall t k c, nth_error cs k = Some c -> nth_error (seen_by t cs) k = Some (snd (does (then_ t (firstn k cs)) c)).
Proof. induction cs as [|c' cs IH]; intros t k c E; [destruct k; discriminate|]. destruct k; cbn in *; [now injection E as ->|]. now apply IH. Qed.
Lemma then_app a : forall b t, then_ t (a ++ b) = then_ (then_ t a) b.
Proof. induction a; intros; cbn; auto. Qed.
Lemma then_snoc cs : forall t k c, nth_error cs k = Some c -> then_ t (firstn (S k) cs) = fst (does (then_ t (firstn k cs)) c).
Proof. induction cs as [|c' cs IH]; intros t k c E; [destruct k; discriminate|]. destruct k; cbn [nth_error] in E; [now injection E as ->|]. cbn [firstn then_]. now apply IH. Qed.
Lemma replaced_other {A} (l : list A) k j x : j <> k -> k < length l -> nth_error (replaced l k x) j = nth_error l j.
Proof. intros H L. rewrite <- set_replaced by exact L. rewrite nth_set. now rewrite (proj2 (Nat.eqb_neq j k) H). Qed.
Lemma replaced_here {A} (l : list A) k x : k < length l -> nth_error (replaced l k x) k = Some x.
Proof. intros L. rewrite <- set_replaced by exact L. rewrite nth_set, Nat.eqb_refl. now rewrite (proj2 (Nat.ltb_lt _ _) L). Qed.
(** What a call does to the pointers *)
Lemma on_views (P : state -> Prop) t m f : P t -> (forall x, nth_error (t_keepers t) m = Some (Some x) -> P (fst (f x))) -> P (fst (on t m f)).
Proof. intros H K. unfold on. destruct (nth_error (t_keepers t) m) as [[x|]|]; auto. Qed.
Lemma on_view_views (P : state -> Prop) t h f : P t -> (forall x, nth_error (t_views t) h = Some (Some x) -> P (fst (f x))) -> P (fst (on_view t h f)).
Proof. intros H K. unfold on_view. destruct (nth_error (t_views t) h) as [[x|]|]; auto. Qed.
Ltac splits := repeat match goal with |- _ /\ _ => split end.
Ltac cases := repeat match goal with
  | |- context [fst (on ?t ?m ?f)] => apply (on_views _ t m f); [|intros]
  | |- context [fst (on_view ?t ?m ?f)] => apply (on_view_views _ t m f); [|intros]
  | |- context [match ?x with _ => _ end] => destruct x
  end.
Definition grows (t t' : state) : Prop := exists l, t_views t' = t_views t ++ l.
Lemma grows_same t : grows t t. Proof. exists []. now rewrite app_nil_r. Qed.
Lemma grows_one t k m v : grows t (mkState k (t_views t ++ [v]) m). Proof. now exists [v]. Qed.
Lemma loads_grows t m arg u n s : grows t (fst (loads t m arg u n s)).
Proof. unfold loads, returns_doc, returns. apply (on_views (grows t)); [apply grows_same|]. intros x _. destruct (already x u (s_text s)); [apply grows_one|]. cbv zeta. destruct (_ <? _)%N; [eexists; reflexivity|apply grows_same]. Qed.
Lemma does_views t c : grows t (fst (does t c)) \/ exists h, c = CDrop h /\ t_views (fst (does t c)) = replaced (t_views t) h None /\ h < length (t_views t).
Proof.
  destruct c; cbn [does]; try (left; apply loads_grows); try (left; apply (on_views (grows t)); [apply grows_same|intros x _]); unfold returns_doc, returns, keeps, writes.
  - left. exists []. cbn. now rewrite app_nil_r.
  - exists []. cbn. now rewrite app_nil_r.
  - exists []. cbn. now rewrite app_nil_r.
  - left. destruct (N.eqb grp _); [apply loads_grows|]. destruct (N.eqb grp _); [apply loads_grows|]. apply (on_views (grows t)); [apply grows_same|]. intros x _. destruct (already x uri text); [apply grows_one|apply grows_same].
  - destruct (N.eqb id no_unknown); [apply grows_same|]. destruct (doc_of x id) as [d|]; [|apply grows_same]. cbv zeta. destruct (update (d_src d) text range version) as [[?|?]| |]; exists []; cbn; now rewrite app_nil_r.
  - destruct (doc_of x id); [apply grows_one|apply grows_same].
  - destruct (latest x n); [apply grows_one|apply grows_same].
  - apply grows_same.
  - destruct (doc_of x id) as [d|]; [|apply grows_same]. destruct (s <=? e); [|apply grows_same]. destruct (str_get (text_of d) s e); [apply grows_one|apply grows_same].
  - destruct (doc_of x id); [apply grows_one|apply grows_same].
  - apply grows_same.
  - apply grows_same.
  - apply (on_view_views (grows t)); intros; apply grows_same.
  - apply (on_view_views (grows t)); [apply grows_same|]. intros v _. cbv zeta. destruct (doc_of x (d_id (v_doc v))) as [d|]; [|apply loads_grows]. destruct (_ =? _); [apply grows_one|apply loads_grows].
  - destruct (latest x (path_name p)); [apply grows_one|]. destruct found; [apply loads_grows|apply grows_same].
  - left. apply (on_view_views (grows t)); intros; apply grows_same.
  - left. apply (on_view_views (grows t)); [apply grows_same|]. intros; apply grows_one.
  - unfold on_view. destruct (nth_error (t_views t) h) as [[v|]|] eqn:E; [|left; apply grows_same..]. right. exists h. cbn. repeat split. apply nth_error_Some. congruence.
Qed.
Lemma view_kept cs : forall t h v, nth_error (t_views t) h = Some (Some v) -> ~ In (CDrop h) cs -> nth_error (t_views (then_ t cs)) h = Some (Some v).
Proof.
  induction cs as [|c cs IH]; intros t h v E N; cbn [then_]; [exact E|]. apply IH; [|intros I; apply N; now right].
  destruct (does_views t c) as [(l & ->)|(h' & -> & -> & L)]; [rewrite nth_error_app1; [exact E|apply nth_error_Some; congruence]|]. rewrite replaced_other; [exact E| |exact L]. intros ->. apply N. now left.
Qed.
(** an answer that shows a file leaves a pointer that shows it *)
Definition shows (t' : state) (h : nat) (an : answer) : Prop := exists v, nth_error (t_views t') h = Some (Some v) /\ seen h v = an.
Lemma returns_shows t v : shows (fst (returns t v)) (length (t_views t)) (snd (returns t v)).
Proof. exists v. cbn. rewrite nth_error_app2, Nat.sub_diag by lia. auto. Qed.
Definition ok (x : state * answer) : Prop := forall h id name src text, snd x = AFile h id name src text -> shows (fst x) h (snd x).
Lemma ok_returns t v : ok (returns t v).
Proof. intros h id name src text E. pose proof (returns_shows t v) as K. rewrite E in *. unfold returns, seen in E. cbn [snd] in E. injection E as <- _ _ _ _. exact K. Qed.
Lemma ok_doc t d : ok (returns_doc t d). Proof. apply ok_returns. Qed.
Lemma ok_not t an : (forall h id name src text, an <> AFile h id name src text) -> ok (t, an).
Proof. intros N h id name src text E. now elim (N _ _ _ _ _ E). Qed.
Lemma ok_on t m f : (forall x, ok (f x)) -> ok (on t m f).
Proof. intros K. unfold on. destruct (nth_error (t_keepers t) m) as [[x|]|]; auto; apply ok_not; discriminate. Qed.
Lemma ok_loads t m arg u n s : ok (loads t m arg u n s).
Proof. apply ok_on. intros x. destruct (already x u (s_text s)); [apply ok_doc|]. cbv zeta. destruct (_ <? _)%N; [apply ok_doc|apply ok_not; discriminate]. Qed.
Lemma ok_view t h f : (forall v, nth_error (t_views t) h = Some (Some v) -> ok (f v)) -> ok (on_view t h f).
Proof. intros K. unfold on_view. destruct (nth_error (t_views t) h) as [[x|]|]; auto; apply ok_not; discriminate. Qed.
Lemma ok_does t c : ok (does t c).
Proof.
  destruct c; cbn [does]; try apply ok_loads; try (apply ok_on; intros x); try (apply ok_not; intros; discriminate).
  - destruct (N.eqb grp _); [apply ok_loads|]. destruct (N.eqb grp _); [apply ok_loads|]. apply ok_on. intros x. destruct (already x uri text); [apply ok_doc|apply ok_not; discriminate].
  - destruct (N.eqb id no_unknown); [apply ok_not; discriminate|]. destruct (doc_of x id) as [d|]; [|apply ok_not; discriminate]. cbv zeta. destruct (update (d_src d) text range version) as [[?|?]| |]; apply ok_not; discriminate.
  - destruct (doc_of x id); [apply ok_doc|apply ok_not; discriminate].
  - destruct (latest x n); [apply ok_doc|apply ok_not; discriminate].
  - destruct (lookup (as_str n) (k_log x)); apply ok_not; discriminate.
  - destruct (doc_of x id) as [d|]; [|apply ok_not; discriminate]. destruct (s <=? e); [|apply ok_not; discriminate]. destruct (str_get (text_of d) s e); [apply ok_returns|apply ok_not; discriminate].
  - destruct (doc_of x id); [apply ok_doc|apply ok_not; discriminate].
  - destruct (doc_of x id); apply ok_not; discriminate.
  - destruct (latest x n) as [d|]; [|apply ok_not; discriminate]. destruct (_ || _); [|destruct (s <=? e)]; apply ok_not; discriminate.
  - apply ok_view. intros v _. apply ok_not. discriminate.
  - apply ok_view. intros v _. cbv zeta. destruct (doc_of x (d_id (v_doc v))) as [d|]; [|apply ok_loads]. destruct (_ =? _); [apply ok_doc|apply ok_loads].
  - destruct (latest x (path_name p)); [apply ok_doc|]. destruct found; [apply ok_loads|apply ok_not; discriminate].
  - apply ok_view. intros v E. intros h' id name src text Q. cbn [snd] in Q. unfold seen in Q. injection Q as <- _ _ _ _. exists v. cbn [fst snd]. auto.
  - apply ok_view. intros v _. apply ok_returns.
  - apply ok_view. intros v _. apply ok_not. discriminate.
Qed.
(** A pointer shows forever what it showed when it was returned, whatever is done to the managers and to other pointers, *)
Theorem pointer_stable : forall cs j k h id name src text, well_formed cs -> j < k ->
  nth_error (answers cs) j = Some (AFile h id name src text) -> nth_error cs k = Some (CRead h) -> (forall i, j < i < k -> nth_error cs i <> Some (CDrop h)) ->
  nth_error (answers cs) k = Some (AFile h id name src text).
Proof.
  intros cs j k h id name src text W Lt Ej Ek Nd. rewrite (unshared_exact cs W) in *. unfold unshared in *. set (t0 := mkState [] [] 0) in *.
  destruct (nth_error cs j) as [c|] eqn:Ec.
  2:{ apply nth_error_None in Ec. assert (K : j < length (seen_by t0 cs)) by (apply nth_error_Some; congruence). assert (Q : forall cs t, length (seen_by t cs) = length cs) by (induction cs0; intros; cbn; auto). rewrite Q in K. lia. }
  rewrite (seen_nth cs t0 j c Ec) in Ej. injection Ej as Ej. destruct (ok_does _ _ _ _ _ _ _ Ej) as (v & Ev & Es). rewrite Ej in Es. rewrite <- (then_snoc cs t0 j c Ec) in Ev.
  rewrite (seen_nth cs t0 k _ Ek). cbn [does]. assert (Eq : firstn k cs = firstn (S j) cs ++ skipn (S j) (firstn k cs)).
  { rewrite <- (firstn_skipn (S j) (firstn k cs)) at 1. f_equal. rewrite firstn_firstn. f_equal. lia. }
  rewrite Eq, then_app. unfold on_view. rewrite (view_kept (skipn (S j) (firstn k cs)) _ h v Ev); [cbn [snd]; now rewrite Es|].
  intros I. apply In_nth_error in I as (p & Ep). assert (Lp : S j + p < k).
  { assert (p < length (skipn (S j) (firstn k cs))) by (apply nth_error_Some; congruence). rewrite skipn_length, firstn_length in H. lia. }
  apply (Nd (S j + p)); [lia|]. assert (Q : forall (l : list call) a b, nth_error (skipn a l) b = nth_error l (a + b)) by (induction l; intros [|a'] b; cbn; auto; destruct b; auto). rewrite Q in Ep.
  rewrite <- Ep. symmetry. rewrite <- (firstn_skipn k cs) at 2. rewrite nth_error_app1; [reflexivity|]. rewrite firstn_length. assert (k < length cs) by (apply nth_error_Some; congruence). lia.
Qed.
(** * Managers do not affect each other *)
(** The calls that may change what a manager keeps *)
Definition changes (c : call) (m : nat) : Prop :=
  match c with
  | CDropManager m' | CLoad m' _ _ | CLoadArgument m' _ _ | CLoadRaw m' _ _ _ _ | CUpdate m' _ _ _ _ | CCopyInto m' _ | CLoadFile m' _ _ => m' = m
  | _ => False
  end.
Definition keeps_m (m : nat) (x : option keeper) (t : state) : Prop := nth_error (t_keepers t) m = Some x.
Lemma keeps_replaced m m' x y t v k : m' <> m -> nth_error (t_keepers t) m' = Some y -> keeps_m m x t -> keeps_m m x (mkState (replaced (t_keepers t) m' v) (t_views t) k).
Proof. intros N E H. unfold keeps_m. cbn [t_keepers]. rewrite replaced_other; [exact H|congruence|apply nth_error_Some; congruence]. Qed.
Lemma keeps_app m x l t k v : keeps_m m x t -> keeps_m m x (mkState (t_keepers t ++ l) v k).
Proof. intros H. unfold keeps_m in *. cbn [t_keepers]. rewrite nth_error_app1; [exact H|apply nth_error_Some; congruence]. Qed.
Lemma keeps_loads m x t m' arg u n s : m' <> m -> keeps_m m x t -> keeps_m m x (fst (loads t m' arg u n s)).
Proof.
  intros N H. unfold loads. apply (on_views (keeps_m m x)); [exact H|]. intros y E. destruct (already y u (s_text s)); [exact H|]. cbv zeta. destruct (_ <? _)%N; [|exact H]. unfold keeps_m. cbn [returns_doc returns fst t_keepers]. exact (keeps_replaced m m' x _ t _ 0 N E H).
Qed.
Lemma keeps_does m x t c : ~ changes c m -> keeps_m m x t -> keeps_m m x (fst (does t c)).
Proof.
  intros N H. destruct c; cbn [does changes] in *; try (apply keeps_loads; [intros ->; now apply N|exact H]); try (apply (on_views (keeps_m m x)); [exact H|intros y Ey]); unfold returns_doc, returns, keeps, writes; cbn [fst].
  - now apply keeps_app.
  - now apply keeps_app.
  - eapply keeps_replaced; eauto.
  - assert (m0 <> m) by congruence. destruct (N.eqb grp _); [now apply keeps_loads|]. destruct (N.eqb grp _); [now apply keeps_loads|]. apply (on_views (keeps_m m x)); [exact H|]. intros y _. destruct (already y uri text); exact H.
  - destruct (N.eqb id no_unknown); [exact H|]. destruct (doc_of y id) as [d|]; [|exact H]. cbv zeta. destruct (update (d_src d) text range version) as [[?|?]| |]; cbn [fst]; eapply keeps_replaced; eauto.
  - destruct (doc_of y id); exact H.
  - destruct (latest y n); exact H.
  - exact H.
  - destruct (doc_of y id) as [d|]; [|exact H]. destruct (s <=? e); [|exact H]. destruct (str_get (text_of d) s e); exact H.
  - destruct (doc_of y id); exact H.
  - exact H.
  - exact H.
  - apply (on_view_views (keeps_m m x)); [exact H|]. intros v _. exact H.
  - apply (on_view_views (keeps_m m x)); [exact H|]. intros v _. cbv zeta. assert (m0 <> m) by congruence. destruct (doc_of y (d_id (v_doc v))) as [d|]; [|now apply keeps_loads]. destruct (_ =? _); [exact H|now apply keeps_loads].
  - destruct (latest y (path_name p)); [exact H|]. destruct found; [apply keeps_loads; [congruence|exact H]|exact H].
  - apply (on_view_views (keeps_m m x)); [exact H|]. intros v _. exact H.
  - apply (on_view_views (keeps_m m x)); [exact H|]. intros v _. exact H.
  - apply (on_view_views (keeps_m m x)); [exact H|]. intros v _. exact H.
Qed.
Lemma keeps_then m x cs : forall t, (forall c, In c cs -> ~ changes c m) -> keeps_m m x t -> keeps_m m x (then_ t cs).
Proof. induction cs as [|c cs IH]; intros t N H; cbn [then_]; [exact H|]. apply IH; [intros c' I; apply N; now right|]. apply keeps_does; [apply N; now left|exact H]. Qed.
Lemma answer_call cs j an : well_formed cs -> nth_error (answers cs) j = Some an -> exists c, nth_error cs j = Some c /\ snd (does (then_ (mkState [] [] 0) (firstn j cs)) c) = an.
Proof.
  intros W E. rewrite (unshared_exact cs W) in E. unfold unshared in E. destruct (nth_error cs j) as [c|] eqn:Ec; [rewrite (seen_nth _ _ _ _ Ec) in E; injection E as E; eauto|].
  apply nth_error_None in Ec. assert (Q : forall cs t, length (seen_by t cs) = length cs) by (induction cs0; intros; cbn; auto). assert (K : j < length (seen_by (mkState [] [] 0) cs)) by (apply nth_error_Some; congruence). rewrite Q in K. lia.
Qed.
Lemma between_calls cs t j k m x : j <= k -> keeps_m m x (then_ t (firstn j cs)) -> (forall i c, j <= i < k -> nth_error cs i = Some c -> ~ changes c m) -> keeps_m m x (then_ t (firstn k cs)).
Proof.
  intros L H N. replace (firstn k cs) with (firstn j cs ++ skipn j (firstn k cs)).
  2:{ rewrite <- (firstn_skipn j (firstn k cs)) at 2. f_equal. rewrite firstn_firstn. f_equal. lia. }
  rewrite then_app. apply keeps_then; [|exact H]. intros c I. apply In_nth_error in I as (p & Ep). assert (Q : forall (l : list call) a b, nth_error (skipn a l) b = nth_error l (a + b)) by (induction l; intros [|a'] b; cbn; auto; destruct b; auto).
  rewrite Q in Ep. assert (Lp : j + p < k). { assert (B : j + p < length (firstn k cs)) by (apply nth_error_Some; congruence). rewrite firstn_length in B. lia. }
  apply (N (j + p)); [lia|]. rewrite <- Ep. rewrite <- (firstn_skipn k cs) at 1. apply nth_error_app1. apply nth_error_Some. congruence.
Qed.
(** a document is seen unchanged as long as its manager is not asked to change something: whatever is done to other managers, clones of it or not, and to pointers, *)
Theorem managers_apart : forall cs j k m id h id' name src text, well_formed cs -> j < k -> nth_error cs j = Some (CGet m id) -> nth_error cs k = Some (CGet m id) ->
  nth_error (answers cs) j = Some (AFile h id' name src text) -> (forall i c, j < i < k -> nth_error cs i = Some c -> ~ changes c m) ->
  exists h', nth_error (answers cs) k = Some (AFile h' id' name src text).
Proof.
  intros cs j k m id h id' name src text W L Ej Ek Aj N. destruct (answer_call cs j _ W Aj) as (c & Ec & A). rewrite Ec in Ej. injection Ej as ->. cbn [does] in A. unfold on in A.
  set (t0 := mkState [] [] 0) in *. destruct (nth_error (t_keepers (then_ t0 (firstn j cs))) m) as [[x|]|] eqn:Ex; [|discriminate..]. destruct (doc_of x id) as [d|] eqn:Ed; [|discriminate].
  assert (K : keeps_m m (Some x) (then_ t0 (firstn k cs))).
  { apply (between_calls cs t0 j k); [lia|exact Ex|]. intros i c Li Ei. destruct (Nat.eq_dec i j) as [->|]; [rewrite Ec in Ei; injection Ei as <-; cbn; tauto|]. apply (N i c); [lia|exact Ei]. }
  rewrite (unshared_exact cs W). unfold unshared. fold t0. rewrite (seen_nth cs t0 k _ Ek). cbn [does]. unfold on. rewrite K, Ed. cbn [returns_doc returns snd] in *. unfold seen in *. cbn [v_doc v_start v_end] in *. injection A as _ <- <- <- <-. eauto.
Qed.
(** * What a manager keeps *)
Definition numbered_docs (x : keeper) : Prop :=
  (forall k d, nth_error (k_files x) k = Some d -> d_id d = no_file k) /\ (forall k d, nth_error (k_args x) k = Some d -> d_id d = no_argument k) /\
  (N.of_nat (length (k_files x)) <= room)%N /\ (N.of_nat (length (k_args x)) <= room)%N /\ (forall n id, lookup n (k_log x) = Some id -> real_id id).
Definition all_numbered (t : state) : Prop := forall m x, nth_error (t_keepers t) m = Some (Some x) -> numbered_docs x.
Lemma nth_replaced {A} (l : list A) k x j y : k < length l -> nth_error (replaced l k x) j = Some y -> j = k /\ y = x \/ j <> k /\ nth_error l j = Some y.
Proof.
  intros L E. destruct (Nat.eq_dec j k) as [->|N]; [rewrite replaced_here in E by exact L; injection E as <-; now left|]. rewrite replaced_other in E by auto. now right.
Qed.
Lemma nth_snoc {A} (l : list A) x k y : nth_error (l ++ [x]) k = Some y -> nth_error l k = Some y \/ k = length l /\ y = x.
Proof.
  destruct (Nat.lt_ge_cases k (length l)) as [H|H]; [rewrite nth_error_app1 by exact H; now left|]. rewrite nth_error_app2 by exact H. destruct (k - length l) as [|j] eqn:E; cbn; [intros [= <-]; right; split; [lia|reflexivity]|destruct j; discriminate].
Qed.
Lemma all_replaced t m x y v k : all_numbered t -> nth_error (t_keepers t) m = Some y -> numbered_docs x -> all_numbered (mkState (replaced (t_keepers t) m (Some x)) v k).
Proof.
  intros A E Nx j z Ej. cbn [t_keepers] in Ej. apply nth_replaced in Ej as [[_ Q]|[_ Q]]; [injection Q as <-; exact Nx|now apply (A j)|apply nth_error_Some; congruence].
Qed.
Lemma all_loads t m arg u n s : all_numbered t -> all_numbered (fst (loads t m arg u n s)).
Proof.
  intros A. unfold loads. apply (on_views all_numbered); [exact A|]. intros x Ex. destruct (already x u (s_text s)); [exact A|]. cbv zeta. destruct (N.ltb_spec (N.of_nat (length (if arg then k_args x else k_files x))) room) as [L|L]; [|exact A].
  intros j z Ej. cbn [returns_doc returns fst t_keepers] in Ej. eapply (all_replaced t m _ _ [] 0 A Ex); [|exact Ej]. destruct (A _ _ Ex) as (F & G & Lf & Lg & U).
  assert (Ur : forall k, (N.of_nat k < room)%N -> real_id (no_file k) /\ real_id (no_argument k)) by (intros k Lk; split; exists k; auto).
  unfold numbered_docs. cbn [k_files k_args k_log]. destruct arg.
  - splits; [exact F| |exact Lf|rewrite app_length; cbn [length]; lia|]; [intros k d Ek; apply nth_snoc in Ek as [Ek|[-> ->]]; [now apply G|reflexivity]|]. intros n' i. cbn [lookup d_id]. destruct (str_eqb (as_str u) n'); [intros [= <-]; now apply Ur|apply U].
  - splits; [|exact G|rewrite app_length; cbn [length]; lia|exact Lg|]; [intros k d Ek; apply nth_snoc in Ek as [Ek|[-> ->]]; [now apply F|reflexivity]|]. intros n' i. cbn [lookup d_id]. destruct (str_eqb (as_str u) n'); [intros [= <-]; now apply Ur|apply U].
Qed.
Lemma doc_of_file x k : (N.of_nat k < room)%N -> doc_of x (no_file k) = nth_error (k_files x) k.
Proof. intros L. unfold doc_of, no_file. rewrite (proj2 (N.ltb_lt _ _) L), Nat2N.id. reflexivity. Qed.
Lemma doc_of_arg x k : (N.of_nat k < room)%N -> doc_of x (no_argument k) = nth_error (k_args x) k.
Proof.
  intros L. assert (A : (no_argument k <? room)%N = false) by (apply N.ltb_ge; unfold no_argument, room; lia). assert (B : N.eqb (no_argument k) no_unknown = false) by (apply N.eqb_neq; unfold no_argument, no_unknown, room in *; lia).
  unfold doc_of. rewrite A, B. f_equal. unfold no_argument. lia.
Qed.
Lemma doc_id x id d : numbered_docs x -> an_id id -> id <> no_unknown -> doc_of x id = Some d -> d_id d = id.
Proof.
  intros (F & G & _) [->|(k & L & [-> | ->])] Nu E; [congruence| |]; [rewrite doc_of_file in E by exact L; now apply F|rewrite doc_of_arg in E by exact L; now apply G].
Qed.
Lemma all_does t c : all_numbered t -> (forall id, In id (ids_of c) -> an_id id) -> all_numbered (fst (does t c)).
Proof.
  intros A Ids. destruct c; cbn [does ids_of] in *; try (apply all_loads; exact A); try (apply (on_views all_numbered); [exact A|intros y Ey]); unfold returns_doc, returns, keeps; cbn [fst]; try exact A.
  - intros j z Ej. cbn [t_keepers] in Ej. apply nth_snoc in Ej as [Ej|[_ [= ->]]]; [now apply (A j)|]. unfold numbered_docs. cbn [k_files k_args k_log length lookup]. splits; try discriminate; intros [|k] d; discriminate.
  - intros j z Ej. cbn [t_keepers] in Ej. apply nth_snoc in Ej as [Ej|[_ [= ->]]]; [now apply (A j)|]. now apply (A m).
  - intros j z Ej. cbn [t_keepers] in Ej. apply nth_replaced in Ej as [[_ Q]|[_ Q]]; [discriminate|now apply (A j)|apply nth_error_Some; congruence].
  - destruct (N.eqb grp _); [now apply all_loads|]. destruct (N.eqb grp _); [now apply all_loads|]. apply (on_views all_numbered); [exact A|]. intros y _. destruct (already y uri text); exact A.
  - specialize (Ids id (or_introl eq_refl)). destruct (N.eqb_spec id no_unknown) as [|Nu]; [exact A|]. destruct (doc_of y id) as [d|] eqn:Ed; [|exact A]. cbv zeta.
    assert (W : forall src, all_numbered (writes t m y (is_argument id) (N.to_nat (if is_argument id then (id - 254 * room)%N else id)) d src)).
    { intros src. unfold writes. cbv zeta. apply (all_replaced t m _ (Some y)); [exact A|exact Ey|]. pose proof (A _ _ Ey) as Ny. pose proof (doc_id y id d Ny Ids Nu Ed) as Di. destruct Ny as (F & G & Lf & Lg & U).
      destruct Ids as [->|(k & L & [-> | ->])]; [congruence| |].
      - destruct (file_id k L) as (_ & _ & _ & ->). rewrite doc_of_file in Ed by exact L. unfold no_file. rewrite Nat2N.id. assert (Lk : k < length (k_files y)) by (apply nth_error_Some; congruence).
        unfold numbered_docs. cbn [k_files k_args k_log]. rewrite replaced_len by exact Lk. splits; auto. intros j e Ej. apply nth_replaced in Ej as [[-> ->]|[_ Ej]]; [exact Di|now apply F|exact Lk].
      - destruct (arg_id k L) as (_ & _ & _ & ->). rewrite doc_of_arg in Ed by exact L. replace (N.to_nat (no_argument k - 254 * room)) with k by (unfold no_argument; lia).
        assert (Lk : k < length (k_args y)) by (apply nth_error_Some; congruence). unfold numbered_docs. cbn [k_files k_args k_log]. rewrite replaced_len by exact Lk. splits; auto. intros j e Ej. apply nth_replaced in Ej as [[-> ->]|[_ Ej]]; [exact Di|now apply G|exact Lk]. }
    destruct (update (d_src d) text range version) as [[?|?]| |]; cbn [fst]; apply W.
  - destruct (doc_of y id); exact A.
  - destruct (latest y n); exact A.
  - destruct (doc_of y id) as [d|]; [|exact A]. destruct (s <=? e); [|exact A]. destruct (str_get (text_of d) s e); exact A.
  - destruct (doc_of y id); exact A.
  - apply (on_view_views all_numbered); [exact A|]. intros v _. exact A.
  - apply (on_view_views all_numbered); [exact A|]. intros v _. cbv zeta. destruct (doc_of y (d_id (v_doc v))) as [d|]; [|now apply all_loads]. destruct (_ =? _); [exact A|now apply all_loads].
  - destruct (latest y (path_name p)); [exact A|]. destruct found; [now apply all_loads|exact A].
  - apply (on_view_views all_numbered); [exact A|]. intros v _. exact A.
  - apply (on_view_views all_numbered); [exact A|]. intros v _. exact A.
  - apply (on_view_views all_numbered); [exact A|]. intros v _. exact A.
Qed.
Lemma all_then cs : forall t, all_numbered t -> (forall c id, In c cs -> In id (ids_of c) -> an_id id) -> all_numbered (then_ t cs).
Proof.
  induction cs as [|c cs IH]; intros t A W; cbn [then_]; [exact A|]. apply IH; [apply all_does; [exact A|intros id; apply W; now left]|]. intros c' id I. apply W. now right.
Qed.
Lemma all_reached cs k : well_formed cs -> all_numbered (then_ (mkState [] [] 0) (firstn k cs)).
Proof. intros W. apply all_then; [intros [|m] x; discriminate|]. intros c id I. apply W. rewrite <- (firstn_skipn k cs). apply in_app_iff. now left. Qed.
(** a document has the identifier under which it is found, *)
Theorem found_id : forall cs k m id h id' name src text, well_formed cs -> id <> no_unknown -> nth_error cs k = Some (CGet m id) -> nth_error (answers cs) k = Some (AFile h id' name src text) -> id' = id.
Proof.
  intros cs k m id h id' name src text W Nu Ek Ak. destruct (answer_call cs k _ W Ak) as (c & Ec & A). rewrite Ek in Ec. injection Ec as <-. cbn [does] in A. unfold on in A. set (t := then_ _ _) in *.
  destruct (nth_error (t_keepers t) m) as [[x|]|] eqn:Ex; [|discriminate..]. destruct (doc_of x id) as [d|] eqn:Ed; [|discriminate]. unfold returns_doc, returns, seen in A. cbn [snd v_doc] in A. injection A as _ <- _ _ _.
  apply (doc_id x); auto; [now apply (all_reached cs k W m)|]. apply (W _ id (nth_error_In _ _ Ek)). now left.
Qed.
(** an update that succeeds is seen, with the content that it makes; one that fails is not, *)
Theorem update_seen : forall cs k m id text range version h name src tx, well_formed cs -> id <> no_unknown ->
  nth_error cs k = Some (CGet m id) -> nth_error cs (S k) = Some (CUpdate m id text range version) -> nth_error cs (S (S k)) = Some (CGet m id) ->
  nth_error (answers cs) k = Some (AFile h id name src tx) ->
  match update src text range version with
  | Val (inl src') => nth_error (answers cs) (S k) = Some ADone /\ nth_error (answers cs) (S (S k)) = Some (AFile (S h) id name src' (str_get (s_text src') 0 (length (s_text src'))))
  | Val (inr e) => nth_error (answers cs) (S k) = Some (AInvalidUpdate e) /\ nth_error (answers cs) (S (S k)) = Some (AFile (S h) id name src tx)
  | _ => nth_error (answers cs) (S k) = Some APanic /\ nth_error (answers cs) (S (S k)) = Some (AFile (S h) id name src tx)
  end.
Proof.
  intros cs k m id text range version h name src tx W Nu E0 E1 E2 A0. assert (Ai : an_id id) by (apply (W _ id (nth_error_In _ _ E0)); now left).
  pose proof (all_reached cs k W) as An. destruct (answer_call cs k _ W A0) as (c & Ec & A). rewrite E0 in Ec. injection Ec as <-. rewrite (unshared_exact cs W). unfold unshared. set (t0 := mkState [] [] 0) in *.
  rewrite (seen_nth cs t0 (S k) _ E1), (seen_nth cs t0 (S (S k)) _ E2), (then_snoc cs t0 (S k) _ E1), (then_snoc cs t0 k _ E0). set (t := then_ t0 (firstn k cs)) in *. cbn [does] in A. unfold on in A.
  destruct (nth_error (t_keepers t) m) as [[x|]|] eqn:Ex; [|discriminate..]. destruct (doc_of x id) as [d|] eqn:Ed; [|discriminate].
  assert (K1 : nth_error (t_keepers (fst (returns_doc t d))) m = Some (Some x)) by exact Ex.
  assert (L1 : length (t_views (fst (returns_doc t d))) = S (length (t_views t))) by (cbn; rewrite app_length; cbn; lia).
  unfold returns_doc, returns, seen in A. cbn [snd v_doc v_start v_end] in A. injection A as Eh Eid Enm Esrc Etx.
  assert (G : does t (CGet m id) = returns_doc t d) by (cbn [does]; unfold on; now rewrite Ex, Ed). rewrite G. set (t1 := fst (returns_doc t d)) in *. cbn [does]. unfold on. rewrite K1, (proj2 (N.eqb_neq _ _) Nu), Ed. cbv zeta. rewrite Esrc.
  assert (Wr : forall s2, let t2 := writes t1 m x (is_argument id) (N.to_nat (if is_argument id then (id - 254 * room)%N else id)) d s2 in
    exists x2, nth_error (t_keepers t2) m = Some (Some x2) /\ doc_of x2 id = Some (mkDoc (t_mark t1) id name s2) /\ length (t_views t2) = S h).
  { intros s2 t2. unfold t2, writes. cbv zeta. cbn [t_keepers t_views]. rewrite replaced_here by (apply nth_error_Some; congruence). eexists. split; [reflexivity|]. split; [|lia]. rewrite Eid, Enm.
    destruct Ai as [->|(j & L & [-> | ->])]; [congruence| |].
    - destruct (file_id j L) as (_ & _ & _ & ->). rewrite doc_of_file in * by exact L. cbn [k_files]. unfold no_file at 1. rewrite Nat2N.id. apply replaced_here. apply nth_error_Some. congruence.
    - destruct (arg_id j L) as (_ & _ & _ & ->). rewrite doc_of_arg in * by exact L. cbn [k_args]. replace (N.to_nat (no_argument j - 254 * room)) with j by (unfold no_argument; lia). apply replaced_here. apply nth_error_Some. congruence. }
  destruct (update src text range version) as [[src'|e]| |]; cbn [fst snd].
  all: split; [reflexivity|].
  - destruct (Wr src') as (x2 & -> & -> & L2). cbv zeta in *. unfold returns_doc, returns, seen. cbn [snd v_doc v_start v_end d_id d_name d_src]. rewrite L2. reflexivity.
  - destruct (Wr src) as (x2 & -> & -> & L2). cbv zeta in *. unfold returns_doc, returns, seen. cbn [snd v_doc v_start v_end d_id d_name d_src]. rewrite L2. unfold text_of in *. cbn [d_src]. rewrite Esrc in Etx. now rewrite Etx.
  - destruct (Wr src) as (x2 & -> & -> & L2). cbv zeta in *. unfold returns_doc, returns, seen. cbn [snd v_doc v_start v_end d_id d_name d_src]. rewrite L2. unfold text_of in *. cbn [d_src]. rewrite Esrc in Etx. now rewrite Etx.
  - destruct (Wr src) as (x2 & -> & -> & L2). cbv zeta in *. unfold returns_doc, returns, seen. cbn [snd v_doc v_start v_end d_id d_name d_src]. rewrite L2. unfold text_of in *. cbn [d_src]. rewrite Esrc in Etx. now rewrite Etx.
Qed.
Lemma loaded cs k m name text h id nm src tx : well_formed cs -> nth_error cs k = Some (CLoad m name text) -> nth_error (answers cs) k = Some (AFile h id nm src tx) ->
  exists x d, lookup (as_str name) (k_log x) = Some id /\ doc_of x id = Some d /\ an_id id /\ text_of d = text /\ d_id d = id /\ d_name d = nm /\ d_src d = src /\ str_get (text_of d) 0 (length (text_of d)) = tx /\
    forall j, k < j -> (forall i c, k < i < j -> nth_error cs i = Some c -> ~ changes c m) -> keeps_m m (Some x) (then_ (mkState [] [] 0) (firstn j cs)).
Proof.
  intros W Ek Ak. pose proof (all_reached cs k W m) as An. destruct (answer_call cs k _ W Ak) as (c & Ec & A). rewrite Ek in Ec. injection Ec as <-. set (t0 := mkState [] [] 0) in *. set (t := then_ t0 (firstn k cs)) in *.
  assert (K : exists x' d, nth_error (t_keepers (fst (does t (CLoad m name text)))) m = Some (Some x') /\ lookup (as_str name) (k_log x') = Some id /\ doc_of x' id = Some d /\ an_id id /\ text_of d = text /\
              AFile h id nm src tx = AFile h (d_id d) (d_name d) (d_src d) (str_get (text_of d) 0 (length (text_of d)))).
  { cbn [does] in *. unfold loads, on in *. destruct (nth_error (t_keepers t) m) as [[x|]|] eqn:Ex; [|discriminate..]. specialize (An x eq_refl). cbn [s_text source_new] in *.
    destruct (already x name text) as [d|] eqn:Al.
    - unfold already, latest in Al. destruct (lookup (as_str name) (k_log x)) as [i|] eqn:El; [|discriminate]. destruct (doc_of x i) as [d'|] eqn:Ed; [|discriminate]. destruct (list_eq_dec N.eq_dec (text_of d') text) as [Et|]; [|discriminate]. injection Al as ->.
      pose proof A as A'. unfold returns_doc, returns, seen in A'. cbn [snd v_doc v_start v_end] in A'. injection A' as Eh Ei En Es Ex'.
      assert (Ri : real_id i) by (now apply (proj2 (proj2 (proj2 (proj2 An))) (as_str name))). pose proof (real_an i Ri) as Ii.
      assert (i = id). { rewrite <- Ei. symmetry. apply (doc_id x); auto. now apply real_known. } subst i.
      exists x, d. cbn [returns_doc returns fst t_keepers]. splits; auto. congruence.
    - cbv zeta in *. set (n := length (k_files x)) in *. destruct (N.ltb_spec (N.of_nat n) room) as [L|L]; [|discriminate]. pose proof A as A'. unfold returns_doc, returns, seen in A'. cbn [snd v_doc v_start v_end d_id d_name d_src] in A'. injection A' as Eh Ei En Es Ex'.
      do 2 eexists. cbn [returns_doc returns fst t_keepers]. rewrite replaced_here by (apply nth_error_Some; congruence). splits; [reflexivity|cbn [k_log lookup]; rewrite str_eqb_refl; cbn [d_id]; congruence| | | |].
      + rewrite <- Ei, doc_of_file by exact L. cbn [k_files]. unfold n. rewrite nth_error_app2, Nat.sub_diag by lia. reflexivity.
      + right. exists n. auto.
      + reflexivity.
      + rewrite <- Ex', <- Ei, <- En, <- Es. reflexivity. }
  destruct K as (x' & d & Kx & Kl & Kd & Ki & Kt & Ka). injection Ka as Eid Enm Es Et. exists x', d. splits; auto. intros j Lj Nc.
  apply (between_calls cs t0 (S k) j); [lia|unfold keeps_m; rewrite (then_snoc cs t0 k _ Ek); exact Kx|]. intros i c Li Ei. apply (Nc i c); [lia|exact Ei].
Qed.
(** a text that is loaded is found under its name and under its identifier, until its manager is asked to change something, *)
Theorem load_found : forall cs k m name text h id nm src tx, well_formed cs ->
  nth_error cs k = Some (CLoad m name text) -> nth_error (answers cs) k = Some (AFile h id nm src tx) ->
  s_text src = text /\ an_id id /\ forall j, k < j -> (forall i c, k < i < j -> nth_error cs i = Some c -> ~ changes c m) ->
    (nth_error cs j = Some (CFind m name) -> nth_error (answers cs) j = Some (AId id)) /\
    (nth_error cs j = Some (CByUri m name) -> exists h', nth_error (answers cs) j = Some (AFile h' id nm src tx)) /\
    (nth_error cs j = Some (CGet m id) -> exists h', nth_error (answers cs) j = Some (AFile h' id nm src tx)).
Proof.
  intros cs k m name text h id nm src tx W Ek Ak. destruct (loaded cs k m name text h id nm src tx W Ek Ak) as (x & d & Kl & Kd & Ki & Kt & Eid & Enm & Es & Et & Kj). splits; [now rewrite <- Es|exact Ki|]. intros j Lj Nc. pose proof (Kj j Lj Nc) as K.
  rewrite (unshared_exact cs W). unfold unshared. splits; intros Ej; rewrite (seen_nth cs _ j _ Ej); cbn [does]; unfold on; rewrite K.
  - cbn [snd]. now rewrite Kl.
  - unfold latest. rewrite Kl, Kd. unfold returns_doc, returns, seen. cbn [snd v_doc v_start v_end]. rewrite Eid, Enm, Es, Et. eauto.
  - rewrite Kd. unfold returns_doc, returns, seen. cbn [snd v_doc v_start v_end]. rewrite Eid, Enm, Es, Et. eauto.
Qed.
(** and a span of it survives the way to a location and back, if it does not begin at the end of the text. *)
Theorem location_roundtrip_partial : forall cs k m name text h id src tx s e, well_formed cs ->
  nth_error cs k = Some (CLoad m name text) -> nth_error (answers cs) k = Some (AFile h id name src tx) -> s <= e -> e <= length text -> s < length text ->
  forall j, k < j -> (forall i c, k < i < j -> nth_error cs i = Some c -> ~ changes c m) ->
    (nth_error cs j = Some (CLocation m id s e) -> nth_error (answers cs) j = Some (ALocation name s e)) /\
    (nth_error cs j = Some (CToSpan m name s e) -> nth_error (answers cs) j = Some (ASpan id s e)).
Proof.
  intros cs k m name text h id src tx s e W Ek Ak L1 L2 L3 j Lj Nc. destruct (loaded cs k m name text h id name src tx W Ek Ak) as (x & d & Kl & Kd & Ki & Kt & Eid & Enm & Es & Et & Kj). pose proof (Kj j Lj Nc) as K.
  rewrite (unshared_exact cs W). unfold unshared. splits; intros Ej; rewrite (seen_nth cs _ j _ Ej); cbn [does]; unfold on; rewrite K; cbn [snd].
  - now rewrite Kd, Enm.
  - unfold latest. rewrite Kl, Kd, Kt, Eid. rewrite (proj2 (Nat.leb_gt _ _) L3), (proj2 (Nat.ltb_ge _ _) L2), (proj2 (Nat.leb_le _ _) L1). reflexivity.
Qed.

(** * What does not hold *)
(** Without that condition the way back fails, as it does when another text has been loaded under the name. *)
Theorem location_end_refuted : ~ (forall m name text id s e h src tx rest, answers [CNew; CLoad m name text; CLocation m id s e; CToSpan m name s e] = [ADone; AFile h id name src tx; ALocation name s e; rest] -> s <= e <= length text -> rest = ASpan id s e).
Proof.
  intros H. specialize (H 0 (FVirtual "a") [97]%N 0%N 1 1 0 (source_new [97]%N) (Some [97]%N) ANone). cbn [length] in H. specialize (H ltac:(vm_compute; reflexivity) ltac:(lia)). discriminate.
Qed.
Theorem location_older_refuted : ~ (forall m name text text' id h src tx x rest, text <> [] ->
  answers [CNew; CLoad m name text; CLoad m name text'; CLocation m id 0 1; CToSpan m name 0 1] = [ADone; AFile h id name src tx; x; ALocation name 0 1; rest] -> rest = ASpan id 0 1).
Proof.
  intros H. specialize (H 0 (FVirtual "a") [97]%N [98]%N 0%N 0 (source_new [97]%N) (Some [97]%N) (AFile 1 1 (FVirtual "a") (source_new [98]%N) (Some [98]%N)) (ASpan 1 0 1) ltac:(discriminate) ltac:(vm_compute; reflexivity)). discriminate.
Qed.
(** Names that are shown alike are taken for one: the file named [stdin] for the standard input, and any two paths that are not UTF-8. *)
Theorem names_refuted : ~ (forall n text h id nm src tx n' h' id' nm' src' tx', n <> n' -> answers [CNew; CLoad 0 n text; CLoad 0 n' text] = [ADone; AFile h id nm src tx; AFile h' id' nm' src' tx'] -> id <> id' /\ nm' = n').
Proof.
  intros H. specialize (H (FPath (Utf8 "stdin")) [97]%N 0 0%N (FPath (Utf8 "stdin")) (source_new [97]%N) (Some [97]%N) FStdin 1 0%N (FPath (Utf8 "stdin")) (source_new [97]%N) (Some [97]%N) ltac:(discriminate) ltac:(vm_compute; reflexivity)). now destruct H.
Qed.
Theorem raw_paths_refuted : ~ (forall p text, answers [CNew; CLoad 0 (FPath p) text; CLoadFile 0 (Raw [255]%N) None] = answers [CNew; CLoad 0 (FPath p) text] ++ [AIoError] \/ p = Raw [255]%N).
Proof. intros H. destruct (H (Raw [254]%N) [97]%N) as [K|K]; [vm_compute in K|]; discriminate. Qed.
(** An identifier that was never given out is reported by [get], but makes an update panic. *)
Theorem update_unknown_refuted : ~ (forall m id text, answers [CNew; CGet m id] = [ADone; AInvalidId] -> answers [CNew; CUpdate m id text None 1] = [ADone; AInvalidId]).
Proof. intros H. specialize (H 0 0%N [] ltac:(vm_compute; reflexivity)). vm_compute in H. discriminate. Qed.
(** An update that fails is not without effect: the manager then denies that the file it returned is its own. *)
Theorem failed_update_refuted : ~ (forall n text range e, answers [CNew; CLoad 0 n text; CUpdate 0 0%N [] range 1] = answers [CNew; CLoad 0 n text] ++ [AInvalidUpdate e] ->
  answers [CNew; CLoad 0 n text; CUpdate 0 0%N [] range 1; CManages 0 0] = answers [CNew; CLoad 0 n text; CUpdate 0 0%N [] range 1] ++ [ABool true]).
Proof.
  intros H. specialize (H FStdin [97]%N (Some (mkSel (mkPos 9 0) (mkPos 9 0))) (InvalidStart (mkPos 9 0)) ltac:(vm_compute; reflexivity)). vm_compute in H. discriminate.
Qed.
(** A text loaded as a file may be an argument, and the other way round. *)
Theorem group_refuted : ~ (forall n text h id nm src tx x, answers [CNew; CLoadArgument 0 n text; CLoad 0 (FVirtual n) text] = [ADone; x; AFile h id nm src tx] -> (id < room)%N).
Proof.
  intros H. specialize (H "a" [97]%N 1 (no_argument 0) (FVirtual "a") (source_new [97]%N) (Some [97]%N) (AFile 0 (no_argument 0) (FVirtual "a") (source_new [97]%N) (Some [97]%N)) ltac:(vm_compute; reflexivity)). vm_compute in H. discriminate.
Qed.
(** The content of a file is not read again. *)
Theorem load_file_refuted : ~ (forall p a b x h id nm src tx, answers [CNew; CLoadFile 0 p (Some a); CLoadFile 0 p (Some b)] = [ADone; x; AFile h id nm src tx] -> s_text src = b).
Proof.
  intros H. specialize (H (Utf8 "f") [97]%N [98]%N (AFile 0 0 (FPath (Utf8 "f")) (source_new [97]%N) (Some [97]%N)) 1 0%N (FPath (Utf8 "f")) (source_new [97]%N) (Some [97]%N) ltac:(vm_compute; reflexivity)). discriminate.
Qed.
(** A history in which documents are written in place and copied *)
Example history_managers :
  let name := FPath (Utf8 "a.c") in
  let cs := [CNew; CLoad 0 name [97; 10; 98]%N; CDrop 0;                    (* only the manager points to it: *)
             CUpdate 0 0%N [99; 10]%N None 1;                               (* written in place *)
             CGet 0 0%N; CClone 0; CUpdate 0 0%N [100]%N None 2;            (* copied *)
             CRead 1; CGet 0 0%N; CGet 1 0%N; CManages 0 1; CManages 1 1; CSlice 1 0%N 0 1] in
  well_formed cs /\
  answers cs = [ADone; AFile 0 0 name (source_new [97; 10; 98]%N) (Some [97; 10; 98]%N); ADone; ADone;
                AFile 1 0 name (mkSource [99; 10]%N [0; 2] 1) (Some [99; 10]%N); ADone; ADone;
                AFile 1 0 name (mkSource [99; 10]%N [0; 2] 1) (Some [99; 10]%N); AFile 2 0 name (mkSource [100]%N [0] 2) (Some [100]%N);
                AFile 3 0 name (mkSource [99; 10]%N [0; 2] 1) (Some [99; 10]%N); ABool false; ABool true; AFile 4 0 name (mkSource [99; 10]%N [0; 2] 1) (Some [99]%N)].
Proof.
  cbv zeta. split; [|vm_compute; reflexivity]. intros c id I. cbn [In] in I. assert (Z : an_id 0) by (right; exists 0; split; [reflexivity|now left]).
  repeat (destruct I as [<-|I]; [cbn [ids_of In]; intros K; try (destruct K as [<-|[]]); try exact Z; try destruct K|]). destruct I.
Qed.
Print Assumptions unshared_exact.
Print Assumptions pointer_stable.
Print Assumptions managers_apart.
Print Assumptions found_id.
Print Assumptions update_seen.
Print Assumptions load_found.
Print Assumptions location_roundtrip_partial.
Print Assumptions location_end_refuted.
Print Assumptions location_older_refuted.
Print Assumptions names_refuted.
Print Assumptions raw_paths_refuted.
Print Assumptions update_unknown_refuted.
Print Assumptions failed_update_refuted.
Print Assumptions group_refuted.
Print Assumptions load_file_refuted.
