(** Proofs about the values of litcheck-core as keys. *)
From Coq Require Import String.
From Verif Require Import Base Cursor_Model Env_Model Num_Model Gram_Model Ord_Model Ord_Spec Ord_Proofs Key_Model Key_Spec.
Open Scope list_scope. Open Scope nat_scope.

(** * Paths and names of files *)
Lemma list_eqb_eq {A} (e : A -> A -> bool) : (forall x y, e x y = true <-> x = y) -> forall l m, list_eqb e l m = true <-> l = m.
Proof.
  intros H. induction l as [|x l IH]; intros [|y m]; cbn; try easy. rewrite andb_true_iff, H, IH. intuition congruence.
Qed.
Lemma path_eq_iff a b : path_eq a b = true <-> components a = components b.
Proof.
  unfold path_eq, components. rewrite andb_true_iff, Bool.eqb_true_iff, (list_eqb_eq _ str_eqb_eq). intuition congruence.
Qed.
Inductive fkey := KStdin | KPath (clean : bool) (c : bool * list str) | KVirtual (s : str).
Definition fname_key (n : fname) : fkey :=
  match n with Stdin => KStdin | Path (Clean s) => KPath true (components s) | Path (Garbled s) => KPath false (components s) | Virtual s => KVirtual s end.
Lemma fname_eq_iff a b : fname_eq a b = true <-> fname_key a = fname_key b.
Proof.
  destruct a as [|[p|p]|s], b as [|[q|q]|t]; cbn; try (split; discriminate); try tauto.
  - rewrite path_eq_iff. intuition congruence.
  - rewrite path_eq_iff. intuition congruence.
  - rewrite str_eqb_eq. intuition congruence.
Qed.
Lemma by_key {A B} (f : A -> B) (e : A -> A -> bool) : (forall x y, e x y = true <-> f x = f y) -> equivalence e.
Proof. intros H. split; intros *; rewrite ?H; congruence. Qed.
Lemma fname_feed_alike : hashed_alike fname_eq fname_feed.
Proof.
  intros a b. rewrite fname_eq_iff. destruct a as [|[p|p]|s], b as [|[q|q]|t]; cbn [fname_key fname_feed]; intros H; try discriminate; congruence.
Qed.
Lemma law_fname : lawful fname_cmp.
Proof. exact (law_key shown_as text_cmp law_text). Qed.

(** * Sources *)
Definition content_key (a : content) : fkey * (str * str) := (fname_key (c_uri a), (c_language a, c_text a)).
Lemma content_eq_iff a b : content_eq a b = true <-> content_key a = content_key b.
Proof.
  unfold content_eq, content_key. rewrite !andb_true_iff, !str_eqb_eq, fname_eq_iff. split; [intros [[-> ->] ->]; reflexivity|]. intros H. injection H as -> -> ->. tauto.
Qed.
Lemma content_feed_alike : hashed_alike content_eq content_feed.
Proof.
  intros a b H. unfold content_eq in H. rewrite !andb_true_iff, !str_eqb_eq in H. destruct H as [[A B] C]. unfold content_feed.
  rewrite A, C, (fname_feed_alike _ _ B). reflexivity.
Qed.
Lemma law_content : lawful content_cmp.
Proof.
  exact (law_key (fun a => (shown_as (c_uri a), c_text a)) _ (law_pair text_cmp text_cmp law_text law_text)).
Qed.
Definition file_key (a : file) : N * (fkey * (str * str)) := (f_id a, content_key (f_content a)).
Lemma file_eq_iff a b : file_eq a b = true <-> file_key a = file_key b.
Proof.
  unfold file_eq, file_key. rewrite andb_true_iff, N.eqb_eq, content_eq_iff. generalize (content_key (f_content a)) (content_key (f_content b)). intros x y.
  split; [intros [-> ->]; reflexivity|]. intros H. injection H as -> ->. tauto.
Qed.
Lemma file_feed_alike : hashed_alike file_eq file_feed.
Proof.
  intros a b H. unfold file_eq in H. rewrite andb_true_iff, N.eqb_eq in H. destruct H as [A B]. unfold file_feed. now rewrite A, (content_feed_alike _ _ B).
Qed.
Lemma law_file : lawful file_cmp.
Proof. exact (law_key (fun a => (f_id a, f_content a)) _ (law_pair N.compare content_cmp law_N law_content)). Qed.
Lemma ref_eq_iff a b : ref_eq a b = true <-> ref_text a = ref_text b.
Proof. apply str_eqb_eq. Qed.

(** * Symbols *)
Lemma text_eq_iff a b : text_cmp a b = Eq <-> a = b.
Proof. now rewrite text_eq, str_eqb_eq. Qed.
Lemma symbol_text_inj names x y : NoDup names -> x < List.length names -> y < List.length names -> symbol_text names x = symbol_text names y -> x = y.
Proof. intros D X Y. now apply NoDup_nth. Qed.

(** * The map of variables *)
Lemma name_iff a b : name_cmp a b = Eq <-> a = b.
Proof. rewrite name_eq. destruct a, b; cbn; try easy; rewrite str_eqb_eq; intuition congruence. Qed.
Lemma eqb_iff a b : vname_eqb a b = true <-> a = b.
Proof. now rewrite <- name_eq, name_iff. Qed.
Lemma var_get_map {V} k (m : list (vname * V)) : var_get by_name k m = map_get name_cmp k m.
Proof. induction m as [|[x v] r IH]; [reflexivity|]. cbn. unfold by_name at 1. now rewrite IH. Qed.
Fixpoint above {V} (k : vname) (m : list (vname * V)) : Prop :=
  match m with [] => True | (x, _) :: r => name_cmp k x = Lt /\ above k r end.
Fixpoint sorted {V} (m : list (vname * V)) : Prop :=
  match m with [] => True | (x, _) :: r => above x r /\ sorted r end.
Lemma lt_trans a b c : name_cmp a b = Lt -> name_cmp b c = Lt -> name_cmp a c = Lt.
Proof. intros A B. apply (law_lt law_name a b c); [easy..|assumption|]. now rewrite B. Qed.
Lemma gt_lt a b : name_cmp a b = Gt <-> name_cmp b a = Lt.
Proof. rewrite (swapped _ _ law_name a b) by easy. destruct (name_cmp a b); cbn; intuition congruence. Qed.
Lemma above_less {V} k x (m : list (vname * V)) : name_cmp k x = Lt -> above x m -> above k m.
Proof. intros L. induction m as [|[y v] r IH]; cbn; [tauto|]. intros [A B]. split; [now apply (lt_trans k x y)|auto]. Qed.
Lemma above_get {V} k (m : list (vname * V)) : above k m -> var_get by_name k m = None.
Proof. destruct m as [|[x v] r]; [reflexivity|]. cbn. intros [A _]. unfold by_name. now rewrite A. Qed.
Lemma above_insert {V} x k (v : V) m : name_cmp x k = Lt -> above x m -> above x (map_insert name_cmp k v m).
Proof. intros L. induction m as [|[y w] r IH]; cbn; [tauto|]. intros [A B]. destruct (name_cmp k y); cbn; tauto. Qed.
Lemma sorted_insert {V} k (v : V) m : sorted m -> sorted (map_insert name_cmp k v m).
Proof.
  induction m as [|[y w] r IH]; cbn; [tauto|]. intros [A B]. destruct (name_cmp k y) eqn:E; cbn.
  - tauto.
  - split; [split; [assumption|now apply (above_less k y)]|tauto].
  - split; [|auto]. apply above_insert; [now apply gt_lt|assumption].
Qed.
Lemma above_delete {V} x k (m : list (vname * V)) : above x m -> above x (var_delete by_name k m).
Proof. induction m as [|[y w] r IH]; cbn; [tauto|]. intros [A B]. destruct (by_name k y); cbn; tauto. Qed.
Lemma sorted_delete {V} k (m : list (vname * V)) : sorted m -> sorted (var_delete by_name k m).
Proof.
  induction m as [|[y w] r IH]; cbn; [tauto|]. intros [A B]. destruct (by_name k y) eqn:E; cbn; [tauto|tauto|]. split; [now apply above_delete|auto].
Qed.
Lemma get_delete {V} q k (m : list (vname * V)) : sorted m ->
  var_get by_name q (var_delete by_name k m) = if vname_eqb k q then None else var_get by_name q m.
Proof.
  induction m as [|[y w] r IH]; cbn [var_delete var_get sorted]; [now destruct (vname_eqb k q)|]. intros [A B].
  destruct (by_name k y) eqn:E; unfold by_name in E.
  - apply name_iff in E as ->. destruct (vname_eqb y q) eqn:Q.
    + apply eqb_iff in Q as ->. now apply above_get.
    + unfold by_name at 2. destruct (name_cmp q y) eqn:F; [|now apply above_get, (above_less q y)|reflexivity].
      apply name_iff in F as ->. assert (vname_eqb y y = true) by now apply eqb_iff. congruence.
  - destruct (vname_eqb k q) eqn:Q; [|reflexivity]. apply eqb_iff in Q as ->. apply above_get. cbn. split; [assumption|now apply (above_less q y)].
  - cbn [var_get]. rewrite (IH B). unfold by_name. destruct (vname_eqb k q) eqn:Q; [|reflexivity]. apply eqb_iff in Q as ->. now rewrite E.
Qed.
Lemma get_define {V} q k (v : V) m : var_get by_name q (var_define k v m) = if vname_eqb k q then Some v else var_get by_name q m.
Proof.
  rewrite !var_get_map. unfold var_define. rewrite (get_insert law_name) by (try easy; apply Forall_forall; easy).
  destruct (vname_eqb k q) eqn:E.
  - apply eqb_iff in E as ->. now rewrite (proj2 (name_iff q q) eq_refl).
  - destruct (name_cmp q k) eqn:F; [|reflexivity..]. apply name_iff in F as ->. assert (vname_eqb k k = true) by now apply eqb_iff. congruence.
Qed.
Lemma run_snoc {V} (l : list (vop V)) o : var_run (l ++ [o]) = var_step (var_run l) o.
Proof. unfold var_run. now rewrite fold_left_app. Qed.
Lemma whole_run {V} (l : list (vop V)) : Forall whole_names l -> sorted (var_run l) /\ forall k, var_get by_name k (var_run l) = left_with (rev l) k.
Proof.
  induction l as [|o l IH] using rev_ind; intros F; [split; [exact I|reflexivity]|]. apply Forall_app in F as [F G]. inversion G; subst.
  destruct (IH F) as [S E]. rewrite run_snoc. split.
  - destruct o; cbn [var_step]; [now apply sorted_insert|now apply sorted_delete|easy].
  - intros q. rewrite rev_app_distr. cbn [rev app left_with]. rewrite <- E. destruct o; cbn [var_step speaks_of]; [now rewrite get_define|now rewrite get_delete|easy].
Qed.

(** Variables of one kind: a text stands for one name. *)
Lemma named_text n s x : kind_of x = n -> by_text s x = by_name (named n s) x.
Proof. intros <-. destruct x; reflexivity. Qed.
Definition kinds {V} (n : nat) (m : list (vname * V)) : Prop := Forall (fun e => kind_of (fst e) = n) m.
Lemma text_get {V} n s (m : list (vname * V)) : kinds n m -> var_get by_text s m = var_get by_name (named n s) m.
Proof. induction 1 as [|[x v] r K F IH]; [reflexivity|]. cbn [var_get]. rewrite (named_text n) by exact K. now rewrite IH. Qed.
Lemma text_delete {V} n s (m : list (vname * V)) : kinds n m -> var_delete by_text s m = var_delete by_name (named n s) m.
Proof. induction 1 as [|[x v] r K F IH]; [reflexivity|]. cbn [var_delete]. rewrite (named_text n) by exact K. now rewrite IH. Qed.
Lemma kinds_insert {V} n k (v : V) m : kind_of k = n -> kinds n m -> kinds n (var_define k v m).
Proof.
  intros K. unfold var_define. induction 1 as [|[x w] r H F IH]; cbn [map_insert]; [now repeat constructor|]. destruct (name_cmp k x); repeat constructor; assumption.
Qed.
Lemma kinds_delete {V} n k (m : list (vname * V)) : kinds n m -> kinds n (var_delete by_name k m).
Proof. induction 1 as [|[x w] r H F IH]; cbn [var_delete]; [constructor|]. destruct (by_name k x); [assumption|now constructor|now constructor]. Qed.
Lemma named_eqb n s k : 1 <= n <= 3 -> kind_of k = n -> vname_eqb (named n s) k = str_eqb s (match k with Pseudo t | Global t | User t => t end).
Proof. intros R <-. now destruct k. Qed.
Lemma one_kind {V} n (l : list (vop V)) : 1 <= n <= 3 -> Forall (of_kind n) l ->
  sorted (var_run l) /\ kinds n (var_run l) /\ forall k, kind_of k = n -> var_get by_name k (var_run l) = left_with (rev l) k.
Proof.
  intros R. induction l as [|o l IH] using rev_ind; intros F; [split; [exact I|split; [constructor|reflexivity]]|]. apply Forall_app in F as [F G]. inversion G as [|? ? O _]; subst.
  destruct (IH F) as (S & K & E). rewrite run_snoc, rev_app_distr. cbn [rev app left_with]. destruct o; cbn [var_step speaks_of of_kind] in *.
  - split; [now apply sorted_insert|]. split; [now apply kinds_insert|]. intros q Q. now rewrite <- E, get_define.
  - split; [now apply sorted_delete|]. split; [now apply kinds_delete|]. intros q Q. now rewrite <- E, get_delete.
  - rewrite (text_delete n) by assumption. split; [now apply sorted_delete|]. split; [now apply kinds_delete|]. intros q Q. rewrite <- E, get_delete by assumption.
    now rewrite (named_eqb n) by assumption.
Qed.

(** * Parts of paths *)
Lemma pieces_end cur p : ~ In 47%N p -> pieces cur p = [cur ++ p].
Proof.
  revert cur. induction p as [|c p IH]; intros cur N; cbn [pieces]; [now rewrite app_nil_r|]. destruct (N.eqb_spec c slash) as [E|E].
  - exfalso. apply N. left. exact E.
  - rewrite IH by (intros I; apply N; now right). now rewrite <- app_assoc.
Qed.
Lemma pieces_slash cur p s : ~ In 47%N p -> pieces cur (p ++ 47%N :: s) = (cur ++ p) :: pieces [] s.
Proof.
  revert cur. induction p as [|c p IH]; intros cur N; cbn [pieces app]; [now rewrite app_nil_r|]. destruct (N.eqb_spec c slash) as [E|E].
  - exfalso. apply N. left. exact E.
  - rewrite IH by (intros I; apply N; now right). now rewrite <- app_assoc.
Qed.
Lemma pieces_joined l : Forall (fun p => ~ In 47%N p) l -> pieces [] (joined l) = match l with [] => [[]] | _ => l end.
Proof.
  induction 1 as [|p r N F IH]; [reflexivity|]. cbn [joined]. destruct r as [|q r]; [now rewrite pieces_end|].
  change (of_string "/" ++ joined (q :: r)) with (47%N :: joined (q :: r)). rewrite pieces_slash by assumption. cbn [app]. f_equal. exact IH.
Qed.
Notation plain := (fun p => (negb (str_eqb p []) && negb (str_eqb p (of_string ".")))%bool).
Lemma plain_spec p : plain_piece p = plain p.
Proof. destruct p as [|c p]; reflexivity. Qed.
Lemma plain_filter l : filter plain_piece l = filter plain l.
Proof. apply filter_ext. exact plain_spec. Qed.
Lemma rooted_parts l : Forall (fun p => ~ In 47%N p) l -> components (of_string "/" ++ joined l) = (true, filter plain l).
Proof.
  intros F. change (of_string "/" ++ joined l) with (47%N :: joined l). unfold components, parts. f_equal. cbn [pieces]. change (47 =? slash)%N with true.
  cbv iota. cbn [plain_piece]. change (absolute (47%N :: joined l)) with true. cbn [negb andb orb app]. rewrite pieces_joined by assumption.
  destruct l as [|p r]; [reflexivity|]. apply plain_filter.
Qed.
Lemma relative_parts p l : Forall (fun p => ~ In 47%N p) l -> ~ In 47%N p -> p <> [] -> components (joined (p :: l)) = (false, p :: filter plain l).
Proof.
  intros F N E. assert (A : absolute (joined (p :: l)) = false).
  { destruct p as [|c p]; [congruence|]. assert (C : c <> slash) by (intros ->; apply N; now left). apply N.eqb_neq in C. destruct l; exact C. }
  unfold components, parts. rewrite A. f_equal. rewrite pieces_joined by (now constructor).
  assert (D : plain_piece p || (negb false && is_dot p) = true).
  { destruct p as [|c p]; [congruence|]. cbn [plain_piece negb andb]. now destruct (is_dot (c :: p)). }
  rewrite D. cbn [app]. f_equal. apply plain_filter.
Qed.
