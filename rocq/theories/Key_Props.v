(** C104: the values of litcheck-core as keys: their equality, order, hash and borrowed forms. *)
From Coq Require Import String.
From Verif Require Import Base Cursor_Model Env_Model Num_Model Gram_Model Ord_Model Ord_Spec Ord_Proofs Key_Model Key_Spec Key_Proofs.
Open Scope string_scope. Open Scope list_scope. Open Scope nat_scope.

(** Names of files, documents, files, parts of files, ranges and symbols are totally ordered; so are spanned values, if the values are. *)
Theorem C104_orders :
  lawful fname_cmp /\ lawful content_cmp /\ lawful file_cmp /\ lawful ref_cmp /\ lawful range_cmp /\ (forall names, lawful (symbol_cmp names)) /\
  forall T (c : T -> T -> comparison), lawful c -> lawful (spanned_cmp c).
Proof.
  split; [exact law_fname|]. split; [exact law_content|]. split; [exact law_file|]. split; [exact (law_key ref_text _ law_text)|].
  split; [exact (law_pair _ _ law_N law_N)|]. split; [intros names; exact (law_key (symbol_text names) _ law_text)|].
  intros T c L. exact (law_key s_value c L).
Qed.
Print Assumptions C104_orders.

(** [==] is an equivalence on them. *)
Theorem C104_equivalences :
  equivalence fname_eq /\ equivalence content_eq /\ equivalence file_eq /\ equivalence ref_eq /\ equivalence range_eq /\ equivalence symbol_eq /\
  forall T (e : T -> T -> bool), equivalence e -> equivalence (spanned_eq e).
Proof.
  split; [exact (by_key fname_key _ fname_eq_iff)|]. split; [exact (by_key content_key _ content_eq_iff)|]. split; [exact (by_key file_key _ file_eq_iff)|].
  split; [exact (by_key ref_text _ ref_eq_iff)|]. split.
  { apply (by_key (fun x => x)). intros [a b] [c d]. unfold range_eq. cbn. rewrite andb_true_iff, !N.eqb_eq. intuition congruence. }
  split; [apply (by_key (fun x => x)); exact Nat.eqb_eq|].
  intros T e E. split; unfold spanned_eq; intros *; [apply (reflexive _ E)|apply (symmetric _ E)|apply (transitive _ E)].
Qed.
Print Assumptions C104_equivalences.

(** Equal values are hashed alike. *)
Theorem C104_hashes :
  hashed_alike fname_eq fname_feed /\ hashed_alike content_eq content_feed /\ hashed_alike file_eq file_feed /\ hashed_alike ref_eq ref_feed /\
  hashed_alike symbol_eq symbol_feed /\
  forall T (e : T -> T -> bool) h, hashed_alike e h -> hashed_alike (spanned_eq e) (spanned_feed h).
Proof.
  split; [exact fname_feed_alike|]. split; [exact content_feed_alike|]. split; [exact file_feed_alike|].
  split; [intros a b H; apply ref_eq_iff in H; unfold ref_feed; congruence|].
  split; [intros a b H; apply Nat.eqb_eq in H; congruence|].
  intros T e h H x y E. now apply H.
Qed.
Print Assumptions C104_hashes.

(** [==] holds of exactly the values that the order takes for equal: parts of files, ranges, and the symbols of a table without repetitions;
    and spanned values, if it does for the values. *)
Theorem C104_consistent_partial :
  consistent ref_cmp ref_eq /\ consistent range_cmp range_eq /\
  (forall names x y, NoDup names -> x < List.length names -> y < List.length names -> (symbol_cmp names x y = Eq <-> symbol_eq x y = true)) /\
  forall T (c : T -> T -> comparison) e, consistent c e -> consistent (spanned_cmp c) (spanned_eq e).
Proof.
  split; [intros a b; unfold ref_cmp, ref_eq; apply text_eq|]. split.
  { intros [a b] [c d]. unfold range_cmp, range_eq. cbn. rewrite andb_true_iff, !N.eqb_eq, <- !N.compare_eq_iff. destruct (a ?= c)%N; cbn; intuition congruence. }
  split.
  - intros names x y D X Y. unfold symbol_cmp, symbol_eq. rewrite text_eq_iff, Nat.eqb_eq. split; [now apply symbol_text_inj|congruence].
  - intros T c e H x y. apply H.
Qed.
Print Assumptions C104_consistent_partial.
(** What the order of names, documents and files looks at: how a name is shown, and the text; neither the kind of the name nor the
    language nor the version. *)
Theorem C104_same :
  (forall a b, fname_cmp a b = Eq <-> shown_as a = shown_as b) /\
  (forall a b, content_cmp a b = Eq <-> shown_as (c_uri a) = shown_as (c_uri b) /\ c_text a = c_text b) /\
  forall a b, file_cmp a b = Eq <-> f_id a = f_id b /\ shown_as (c_uri (f_content a)) = shown_as (c_uri (f_content b)) /\ c_text (f_content a) = c_text (f_content b).
Proof.
  assert (C : forall a b, content_cmp a b = Eq <-> shown_as (c_uri a) = shown_as (c_uri b) /\ c_text a = c_text b).
  { intros a b. unfold content_cmp, fname_cmp. rewrite <- !text_eq_iff. destruct (text_cmp (shown_as (c_uri a)) (shown_as (c_uri b))); cbn; intuition congruence. }
  split; [intros a b; apply text_eq_iff|]. split; [exact C|].
  intros a b. unfold file_cmp. rewrite <- C, <- N.compare_eq_iff. destruct (f_id a ?= f_id b)%N; cbn; intuition congruence.
Qed.
Print Assumptions C104_same.
(** What [==] looks at: for names their kind and the text or the components of the path; for documents the language, the name and the text. *)
Theorem C104_equal :
  (forall s t, fname_eq (Virtual s) (Virtual t) = true <-> s = t) /\
  (forall s t, fname_eq (Path (Clean s)) (Path (Clean t)) = true <-> components s = components t) /\
  (forall s t, fname_eq (Path (Garbled s)) (Path (Garbled t)) = true <-> components s = components t) /\
  (forall s p, fname_eq (Virtual s) (Path p) = false /\ fname_eq (Virtual s) Stdin = false /\ fname_eq (Path p) Stdin = false /\
     fname_eq (Path p) (Virtual s) = false /\ fname_eq Stdin (Virtual s) = false /\ fname_eq Stdin (Path p) = false) /\
  (forall a b, content_eq a b = true <-> c_language a = c_language b /\ fname_eq (c_uri a) (c_uri b) = true /\ c_text a = c_text b) /\
  (forall a b, file_eq a b = true <-> f_id a = f_id b /\ content_eq (f_content a) (f_content b) = true) /\
  (forall a b, ref_eq a b = true <-> ref_text a = ref_text b).
Proof.
  split; [intros; apply str_eqb_eq|]. split; [intros; apply path_eq_iff|]. split; [intros; apply path_eq_iff|].
  split; [intros s [p|p]; repeat split|]. split; [intros a b; unfold content_eq; rewrite !andb_true_iff, !str_eqb_eq; tauto|].
  split; [intros a b; unfold file_eq; now rewrite andb_true_iff, N.eqb_eq|exact ref_eq_iff].
Qed.
Print Assumptions C104_equal.

(** The components of a path that is written with slashes between its parts: the parts that are neither empty nor ".", but for a "." at
    the beginning of a relative path.  So paths are equal whatever slashes and dots are written between their parts. *)
Theorem C104_paths (l : list str) : Forall (fun p => ~ In 47%N p) l ->
  components (of_string "/" ++ joined l) = (true, filter (fun p => negb (str_eqb p []) && negb (str_eqb p (of_string "."))) l) /\
  forall p, ~ In 47%N p -> p <> [] ->
    components (joined (p :: l)) = (false, p :: filter (fun p => negb (str_eqb p []) && negb (str_eqb p (of_string "."))) l).
Proof. intros F. split; [now apply rooted_parts|]. intros p N E. now apply relative_parts. Qed.
Print Assumptions C104_paths.

(** The order and [==] disagree on names, documents and files: standard input and a file named "stdin" are taken for the same by a map
    that is ordered by names, as are all paths that are no text; and a path written in two ways is equal to itself, but not taken for the
    same. *)
Definition document (l : str) : content := mkContent l (Virtual (of_string "a")) (of_string "x") 0.
Theorem C104_consistent_refuted :
  fname_cmp Stdin (Path (Clean (of_string "stdin"))) = Eq /\ fname_eq Stdin (Path (Clean (of_string "stdin"))) = false /\
  (forall a b, fname_cmp (Path (Garbled a)) (Path (Garbled b)) = Eq) /\
  fname_eq (Path (Clean (of_string "a//b/."))) (Path (Clean (of_string "a/b"))) = true /\
  fname_cmp (Path (Clean (of_string "a//b/."))) (Path (Clean (of_string "a/b"))) <> Eq /\
  ~ consistent fname_cmp fname_eq /\ ~ consistent content_cmp content_eq /\ ~ consistent file_cmp file_eq.
Proof.
  split; [reflexivity|]. split; [reflexivity|]. split; [reflexivity|]. split; [reflexivity|]. split; [discriminate|].
  split; [intros H; discriminate (proj1 (H Stdin (Virtual (of_string "stdin"))) eq_refl)|].
  split; [intros H; discriminate (proj1 (H (document (of_string "a")) (document (of_string "b"))) eq_refl)|].
  intros H. discriminate (proj1 (H (mkFile 0 (document (of_string "a"))) (mkFile 0 (document (of_string "b")))) eq_refl).
Qed.
Print Assumptions C104_consistent_refuted.

(** A value that is borrowed from a key is compared and hashed as the key: for spanned values, and for the order and the equality of
    symbols as texts. *)
Theorem C104_borrow_partial :
  (forall T (e : T -> T -> bool) c h, same_equality (@spanned_borrow T) (spanned_eq e) e /\ same_order (@spanned_borrow T) (spanned_cmp c) c /\
     same_hash (@spanned_borrow T) (spanned_feed h) h) /\
  (forall names, same_order (symbol_text names) (symbol_cmp names) text_cmp) /\
  forall names x y, NoDup names -> x < List.length names -> y < List.length names -> symbol_eq x y = str_eqb (symbol_text names x) (symbol_text names y).
Proof.
  split; [repeat split|]. split; [intros names x y; reflexivity|]. intros names x y D X Y. unfold symbol_eq.
  apply eq_true_iff_eq. rewrite Nat.eqb_eq, str_eqb_eq. split; [congruence|now apply symbol_text_inj].
Qed.
Print Assumptions C104_borrow_partial.
(** A symbol is not hashed as its text, so that a hash map with symbols as keys cannot be asked with a text; and names of variables are
    neither compared nor equal as their texts are. *)
Theorem C104_borrow_refuted :
  (forall names x, symbol_feed x <> str_feed (symbol_text names x)) /\
  ~ same_order name_text name_cmp text_cmp /\ ~ same_equality name_text vname_eqb str_eqb.
Proof.
  split; [intros names x; discriminate|]. split; intros H.
  - discriminate (H (Pseudo (of_string "a")) (Global (of_string "a"))).
  - discriminate (H (Pseudo (of_string "a")) (Global (of_string "a"))).
Qed.
Print Assumptions C104_borrow_refuted.

(** A map of variables that is used with whole names holds what the last definition or deletion of the name says; so does one with a
    single kind of variables, if asked with texts. *)
Theorem C104_variables_partial V (l : list (vop V)) k : Forall whole_names l -> var_get by_name k (var_run l) = left_with (rev l) k.
Proof. intros F. now apply whole_run. Qed.
Print Assumptions C104_variables_partial.
Theorem C104_texts_partial V n (l : list (vop V)) s : 1 <= n <= 3 -> Forall (of_kind n) l ->
  var_get by_text s (var_run l) = left_with (rev l) (named n s) /\ var_get by_name (named n s) (var_run l) = left_with (rev l) (named n s) /\
  var_defined by_text s (var_run l) = match left_with (rev l) (named n s) with Some _ => true | None => false end.
Proof.
  intros R F. destruct (one_kind n l R F) as (_ & K & E).
  assert (G : var_get by_name (named n s) (var_run l) = left_with (rev l) (named n s)).
  { apply E. destruct n as [|[|[|[|n]]]]; [lia|reflexivity..|lia]. }
  unfold var_defined. rewrite (text_get n) by assumption. rewrite G. repeat split.
Qed.
Print Assumptions C104_texts_partial.
(** With variables of several kinds a variable is not found by its text, and a deletion by text misses it. *)
Definition two_kinds : list (vop nat) := [Define (Global (of_string "a")) 1; Define (Pseudo (of_string "b")) 2].
Theorem C104_texts_refuted :
  var_get by_name (Global (of_string "a")) (var_run two_kinds) = Some 1 /\
  var_get by_text (of_string "a") (var_run two_kinds) = None /\
  var_get by_name (Global (of_string "a")) (var_run (two_kinds ++ [DeleteText (of_string "a")])) = Some 1.
Proof. repeat split. Qed.
Print Assumptions C104_texts_refuted.

(** The text of a part of a file is what is between its ends; a part that would go beyond the end of the file ends with it. *)
Theorem C104_part f a t b extra : c_text (f_content f) = a ++ t ++ b ->
  ref_text (ref_new f (List.length a) (List.length a + List.length t)) = t /\
  r_from (ref_new f (List.length a) (List.length a + List.length t)) = List.length a /\ r_upto (ref_new f (List.length a) (List.length a + List.length t)) = List.length a + List.length t /\
  ref_new f (List.length a) (List.length (a ++ t ++ b) + extra) = ref_new f (List.length a) (List.length (a ++ t ++ b)).
Proof.
  intros E. unfold ref_text, ref_new. cbn [r_upto r_from r_file]. rewrite !E, !app_length. rewrite !Nat.min_l by lia. rewrite !Nat.min_r by lia.
  repeat split. rewrite skipn_app, skipn_all, Nat.sub_diag. cbn [app]. rewrite Nat.add_comm, Nat.add_sub. cbn [skipn].
  rewrite firstn_app, firstn_all, Nat.sub_diag. cbn [firstn]. apply app_nil_r.
Qed.
Print Assumptions C104_part.
(** Non-trivial cases *)
Example key_case :
  let h := [Define (User (of_string "b")) 1; Define (User (of_string "a")) 2; Define (User (of_string "b")) 3; DeleteText (of_string "a"); Define (User (of_string "c")) 4] in
  Forall (of_kind 3) h /\ var_get by_text (of_string "b") (var_run h) = Some 3 /\ var_get by_text (of_string "a") (var_run h) = None /\
  map fst (var_run h) = [User (of_string "b"); User (of_string "c")] /\
  components (of_string "/a//b/./c/") = (true, [of_string "a"; of_string "b"; of_string "c"]) /\ components (of_string "./a") = (false, [of_string "."; of_string "a"]) /\
  ref_text (ref_new (mkFile 0 (mkContent [] Stdin (of_string "abcdef") 0)) 2 99) = of_string "cdef" /\
  symbol_cmp [of_string "b"; of_string "a"] 0 1 = Gt.
Proof. cbn zeta. split; [repeat constructor|]. repeat split. Qed.
