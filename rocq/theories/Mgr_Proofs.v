(** Proofs for C85: the managers with their shared files and writes in place are seen as if nothing were shared. *)
From Coq Require Import String.
From Verif Require Import Base Text_Model Cursor_Model Map_Model Source_Model Mgr_Model Mgr_Spec.
Open Scope list_scope.
Open Scope nat_scope.
Ltac splits := repeat match goal with |- _ /\ _ => split end.

(** * Identifiers *)
Definition real_id (id : N) : Prop := exists k, (N.of_nat k < room)%N /\ (id = no_file k \/ id = no_argument k).
Lemma land_high a : N.land a group_mask = N.shiftl (N.land (a / 16777216) 255) 24.
Proof.
  change group_mask with (N.shiftl 255 24). change 16777216%N with (2 ^ 24)%N. rewrite <- N.shiftr_div_pow2. apply N.bits_inj. intros i. rewrite N.land_spec. destruct (N.lt_ge_cases i 24) as [H|H].
  - rewrite !N.shiftl_spec_low by exact H. apply andb_false_r.
  - rewrite !N.shiftl_spec_high' by exact H. rewrite N.land_spec, N.shiftr_spec', N.sub_add by exact H. reflexivity.
Qed.
Lemma land_low a : N.land a index_mask = (a mod 16777216)%N.
Proof. change index_mask with (N.ones 24). rewrite N.land_ones. reflexivity. Qed.
Lemma div_arg k : (k < 16777216)%N -> ((254 * 16777216 + k) / 16777216 = 254)%N.
Proof. intros H. symmetry. apply (N.div_unique _ _ _ k); lia. Qed.
Lemma mod_arg k : (k < 16777216)%N -> ((254 * 16777216 + k) mod 16777216 = k)%N.
Proof. intros H. symmetry. apply (N.mod_unique _ _ 254); lia. Qed.
Lemma file_id k : (N.of_nat k < room)%N -> to_index (no_file k) = k /\ group (no_file k) = g_file /\ is_cli_argument (no_file k) = false /\ is_argument (no_file k) = false.
Proof.
  intros H. unfold room in H. assert (G : group (no_file k) = g_file) by (unfold group, no_file; rewrite land_high, N.div_small by lia; reflexivity). splits.
  - unfold to_index, no_file. rewrite land_low, N.mod_small by lia. apply Nat2N.id.
  - exact G.
  - unfold is_cli_argument. now rewrite G.
  - unfold is_argument, no_file, room. apply N.leb_gt. lia.
Qed.
Lemma arg_id k : (N.of_nat k < room)%N -> to_index (no_argument k) = k /\ group (no_argument k) = g_argument /\ is_cli_argument (no_argument k) = true /\ is_argument (no_argument k) = true.
Proof.
  intros H. unfold room in H. assert (G : group (no_argument k) = g_argument) by (unfold group, no_argument, room; rewrite land_high, div_arg by lia; reflexivity). splits.
  - unfold to_index, no_argument, room. rewrite land_low, mod_arg by lia. apply Nat2N.id.
  - exact G.
  - unfold is_cli_argument. now rewrite G.
  - unfold is_argument, no_argument, room. apply N.leb_le. lia.
Qed.
Lemma new_file_id k : id_file (N.of_nat k) = if (N.of_nat k <? room)%N then Val (no_file k) else Panic.
Proof.
  unfold id_file, index_mask, room. destruct (N.leb_spec (N.of_nat k) 16777215), (N.ltb_spec (N.of_nat k) 16777216); try lia; [|reflexivity]. unfold g_file. now rewrite N.lor_0_r.
Qed.
Lemma new_argument_id k : id_argument (N.of_nat k) = if (N.of_nat k <? room)%N then Val (no_argument k) else Panic.
Proof.
  unfold id_argument, index_mask, room. destruct (N.leb_spec (N.of_nat k) 16777215), (N.ltb_spec (N.of_nat k) 16777216); try lia; [|reflexivity].
  assert (Z : N.land (N.of_nat k) g_argument = 0%N).
  { change g_argument with (N.shiftl 254 24). apply N.bits_inj. intros i. rewrite N.land_spec, N.bits_0. destruct (N.lt_ge_cases i 24) as [L|L]; [rewrite N.shiftl_spec_low by exact L; apply andb_false_r|].
    rewrite <- (N.mod_small (N.of_nat k) (2 ^ 24)) by (change (2 ^ 24)%N with 16777216%N; lia). rewrite N.mod_pow2_bits_high by exact L. reflexivity. }
  f_equal. rewrite <- N.lxor_lor by exact Z. rewrite <- N.add_nocarry_lxor by exact Z. unfold no_argument, room, g_argument. lia.
Qed.
Lemma dash_eq s : str_eqb s "-"%string = if list_eq_dec N.eq_dec s [45%N] then true else false.
Proof. destruct (list_eq_dec N.eq_dec s [45%N]) as [->|n]; [reflexivity|]. now apply str_eqb_neq. Qed.
Lemma text_named s : from_text s = text_name s.
Proof. unfold from_text, text_name. rewrite dash_eq. now destruct (list_eq_dec N.eq_dec s [45%N]). Qed.
Lemma path_named p : from_path p = path_name p.
Proof. unfold from_path, path_name. destruct p as [s|b]; [|reflexivity]. rewrite dash_eq. now destruct (list_eq_dec N.eq_dec s [45%N]). Qed.
Lemma unknown_facts : to_index no_unknown = N.to_nat (room - 1) /\ group no_unknown = g_unknown /\ is_cli_argument no_unknown = false.
Proof.
  splits; [|reflexivity|reflexivity]. unfold to_index. rewrite land_low. reflexivity.
Qed.

(** * The relation *)
Definition rho (sg : addr -> nat) (h : heap) (a : addr) : doc :=
  match nth_error h a with Some f => mkDoc (sg a) (f_id f) (f_name f) (f_src f) | None => mkDoc 0 0 FStdin (source_new []) end.
Definition vw (r : addr -> doc) (x : handle) : view := mkView (r (h_addr x)) (h_start x) (h_end x).
Definition exists_doc (y : keeper) (id : N) : Prop := an_id id /\ doc_of y id <> None.
Definition mrel (r : addr -> doc) (x : option manager) (y : option keeper) : Prop :=
  match x, y with
  | Some x, Some y => k_files y = map r (m_files x) /\ k_args y = map r (m_args x) /\ sorted (m_uris x) /\ (forall n, lookup n (k_log y) = lookup n (m_uris x)) /\
                      (forall n id, lookup n (m_uris x) = Some id -> exists_doc y id)
  | None, None => True
  | _, _ => False
  end.
Definition Rs (sg : addr -> nat) (w : world) (t : state) : Prop :=
  Forall2 (mrel (rho sg (w_heap w))) (w_mgrs w) (t_keepers t) /\
  t_views t = map (option_map (vw (rho sg (w_heap w)))) (w_handles w) /\
  (forall a, In a (pointers w) -> a < length (w_heap w) /\ sg a < t_mark t) /\
  (forall a b, In a (pointers w) -> In b (pointers w) -> sg a = sg b -> a = b) /\
  Forall (fun f => real_id (f_id f)) (w_heap w).
Definition R w t := exists sg, Rs sg w t.

Lemma get_doc r x y id : mrel r (Some x) (Some y) -> an_id id -> doc_of y id = option_map r (mgr_get x id).
Proof.
  intros (F & A & _) [->|(k & L & [-> | ->])]; unfold doc_of, mgr_get.
  - destruct unknown_facts as (I & _ & C). rewrite C, I. change (no_unknown <? room)%N with false. rewrite N.eqb_refl, F. apply nth_error_map.
  - destruct (file_id k L) as (I & _ & C & _). rewrite C, I. unfold no_file at 1. rewrite (proj2 (N.ltb_lt _ _) L), F. unfold no_file. rewrite Nat2N.id. apply nth_error_map.
  - destruct (arg_id k L) as (I & _ & C & _). rewrite C, I, A. unfold no_argument, no_unknown, room in *. destruct (N.ltb_spec (254 * 16777216 + N.of_nat k) 16777216); [lia|]. destruct (N.eqb_spec (254 * 16777216 + N.of_nat k) 4294967295); [lia|].
    replace (N.to_nat (254 * 16777216 + N.of_nat k - 254 * 16777216)) with k by lia. apply nth_error_map.
Qed.
Lemma mgr_at w t sg m x : Rs sg w t -> nth_error (w_mgrs w) m = Some x -> exists y, nth_error (t_keepers t) m = Some y /\ mrel (rho sg (w_heap w)) x y.
Proof.
  intros (F & _). revert m. induction F as [|a b l l' H F IH]; intros [|m] E; try discriminate; cbn in *; [injection E as <-; eauto|auto].
Qed.
Lemma mgr_none w t sg m : Rs sg w t -> nth_error (w_mgrs w) m = None -> nth_error (t_keepers t) m = None.
Proof.
  intros (F & _). revert m. induction F as [|a b l l' H F IH]; intros [|m] E; try discriminate; cbn in *; auto.
Qed.
Lemma with_on w t sg m f g : Rs sg w t ->
  (forall x y, nth_error (w_mgrs w) m = Some (Some x) -> nth_error (t_keepers t) m = Some (Some y) -> mrel (rho sg (w_heap w)) (Some x) (Some y) -> snd (f x) = snd (g y) /\ R (fst (f x)) (fst (g y))) ->
  snd (with_mgr w m f) = snd (on t m g) /\ R (fst (with_mgr w m f)) (fst (on t m g)).
Proof.
  intros H K. unfold with_mgr, on. destruct (nth_error (w_mgrs w) m) as [x|] eqn:E.
  - destruct (mgr_at w t sg m x H E) as (y & Ey & M). rewrite Ey. destruct x as [x|], y as [y|]; [apply K; auto|destruct M|destruct M|]. split; [reflexivity|now exists sg].
  - rewrite (mgr_none w t sg m H E). split; [reflexivity|now exists sg].
Qed.
Lemma with_view w t sg h f g : Rs sg w t ->
  (forall x, nth_error (w_handles w) h = Some (Some x) -> nth_error (t_views t) h = Some (Some (vw (rho sg (w_heap w)) x)) -> snd (f x) = snd (g (vw (rho sg (w_heap w)) x)) /\ R (fst (f x)) (fst (g (vw (rho sg (w_heap w)) x)))) ->
  snd (with_handle w h f) = snd (on_view t h g) /\ R (fst (with_handle w h f)) (fst (on_view t h g)).
Proof.
  intros H K. unfold with_handle, on_view. pose proof H as (_ & V & _). assert (E2 : nth_error (t_views t) h = option_map (option_map (vw (rho sg (w_heap w)))) (nth_error (w_handles w) h)) by (rewrite V; apply nth_error_map).
  destruct (nth_error (w_handles w) h) as [[x|]|] eqn:E; cbn [option_map] in E2; rewrite E2; cbn [fst snd]; [now apply K|split; [reflexivity|now exists sg]..].
Qed.
(** pointers *)
Lemma mgr_pointer w m x a : nth_error (w_mgrs w) m = Some (Some x) -> In a (m_files x ++ m_args x) -> In a (pointers w).
Proof. intros E I. unfold pointers. apply in_app_iff. left. apply in_flat_map. exists (Some x). split; [eapply nth_error_In; eauto|exact I]. Qed.
Lemma handle_pointer w h x : nth_error (w_handles w) h = Some (Some x) -> In (h_addr x) (pointers w).
Proof. intros E. unfold pointers. apply in_app_iff. right. apply in_flat_map. exists (Some x). split; [eapply nth_error_In; eauto|now left]. Qed.
Lemma got_pointer w m x id a : nth_error (w_mgrs w) m = Some (Some x) -> mgr_get x id = Some a -> In a (pointers w).
Proof.
  intros E G. apply (mgr_pointer w m x a E). unfold mgr_get in G. apply in_app_iff. destruct (is_cli_argument id); [right|left]; eapply nth_error_In; eauto.
Qed.
Lemma live_file sg w t a : Rs sg w t -> In a (pointers w) -> exists f, nth_error (w_heap w) a = Some f /\ rho sg (w_heap w) a = mkDoc (sg a) (f_id f) (f_name f) (f_src f) /\ real_id (f_id f) /\ file_text (w_heap w) a = s_text (f_src f).
Proof.
  intros (_ & _ & L & _ & Fi) I. destruct (L a I) as [La _]. apply nth_error_Some in La. unfold rho, file_text. destruct (nth_error (w_heap w) a) as [f|] eqn:E; [|congruence]. exists f. splits; auto. rewrite Forall_forall in Fi. apply Fi. eapply nth_error_In; eauto.
Qed.
(** A pointer is returned. *)
Lemma give_returns sg w t a s e : Rs sg w t -> In a (pointers w) ->
  snd (give w (mkHandle a s e)) = snd (returns t (mkView (rho sg (w_heap w) a) s e)) /\ R (fst (give w (mkHandle a s e))) (fst (returns t (mkView (rho sg (w_heap w) a) s e))).
Proof.
  intros H I. destruct (live_file sg w t a H I) as (f & E & Er & _ & _). pose proof H as (F & V & L & J & Fi). unfold give, returns, shown, seen, text_of. cbn [fst snd h_addr h_start h_end v_doc v_start v_end]. rewrite E, Er. cbn [d_id d_name d_src]. split.
  - rewrite V, map_length. reflexivity.
  - exists sg. unfold Rs. cbn [w_heap w_mgrs w_handles t_keepers t_views t_mark].
    assert (P : forall b, In b (pointers (mkWorld (w_heap w) (w_mgrs w) (w_handles w ++ [Some (mkHandle a s e)]))) -> In b (pointers w)).
    { intros b. unfold pointers. cbn [w_mgrs w_handles]. rewrite flat_map_app. cbn [flat_map handle_addrs h_addr app]. intros K. apply in_app_iff in K as [K|K]; [apply in_app_iff; now left|]. apply in_app_iff in K as [K|[<-|[]]]; [apply in_app_iff; now right|exact I]. }
    splits; [exact F| |intros b Ib; apply L; now apply P|intros b c Ib Ic; apply J; now apply P|exact Fi]. rewrite map_app, V. cbn [map option_map]. unfold vw at 3. cbn [h_addr h_start h_end]. now rewrite Er.
Qed.
Lemma give_returns_doc sg w t a d : Rs sg w t -> In a (pointers w) -> rho sg (w_heap w) a = d ->
  snd (give_file w a) = snd (returns_doc t d) /\ R (fst (give_file w a)) (fst (returns_doc t d)).
Proof.
  intros H I <-. unfold give_file, returns_doc. replace (length (file_text (w_heap w) a)) with (length (text_of (rho sg (w_heap w) a))); [now apply give_returns|].
  destruct (live_file sg w t a H I) as (f & E & Er & _ & Ef). now rewrite Ef, Er.
Qed.
(** * Lists *)
Lemma replaced_split {A} (l1 l2 : list A) a x : replaced (l1 ++ a :: l2) (length l1) x = l1 ++ x :: l2.
Proof.
  unfold replaced. rewrite firstn_app, firstn_all, Nat.sub_diag, app_nil_r. f_equal. rewrite skipn_app, skipn_all2 by lia. cbn [app]. replace (S (length l1) - length l1) with 1 by lia. reflexivity.
Qed.
Lemma set_split {A} (l1 l2 : list A) a x : set_nth (l1 ++ a :: l2) (length l1) x = l1 ++ x :: l2.
Proof. induction l1; cbn; [reflexivity|]. now rewrite IHl1. Qed.
Lemma set_nth_len {A} (l : list A) : forall k x, length (set_nth l k x) = length l.
Proof. induction l; intros [|k] x; cbn; auto. Qed.
Lemma nth_set {A} (l : list A) : forall k x j, nth_error (set_nth l k x) j = if Nat.eqb j k then (if k <? length l then Some x else None) else nth_error l j.
Proof.
  induction l as [|y l IH]; intros k x j; cbn [set_nth].
  - destruct j; cbn; destruct k; cbn; try reflexivity; destruct (j =? k); reflexivity.
  - destruct k, j; cbn; try reflexivity. apply IH.
Qed.
Lemma set_replaced {A} (l : list A) k x : k < length l -> set_nth l k x = replaced l k x.
Proof. intros H. apply nth_error_Some in H. destruct (nth_error l k) as [y|] eqn:E; [|congruence]. apply nth_error_split in E as (l1 & l2 & -> & <-). now rewrite set_split, replaced_split. Qed.
Lemma replaced_len {A} (l : list A) k x : k < length l -> length (replaced l k x) = length l.
Proof. intros H. rewrite <- set_replaced by exact H. apply set_nth_len. Qed.
Lemma forall2_replaced {A B} (P : A -> B -> Prop) l l' m x y : Forall2 P l l' -> m < length l -> P x y -> Forall2 P (set_nth l m x) (replaced l' m y).
Proof.
  intros F. revert m. induction F as [|a b l l' H F IH]; intros m L K; [cbn in L; lia|]. destruct m; cbn in *; [constructor; auto|]. constructor; [exact H|]. apply IH; [lia|exact K].
Qed.
(** the managers and the handles when the files change *)
Lemma mrel_ext r r' x y : (forall a, In a (mgr_addrs x) -> r a = r' a) -> mrel r x y -> mrel r' x y.
Proof.
  intros E. destruct x as [x|], y as [y|]; auto. intros (F & A & K). cbn [mgr_addrs] in E. split; [|split; [|exact K]].
  - rewrite F. apply List.map_ext_in. intros a I. apply E. apply in_app_iff. now left.
  - rewrite A. apply List.map_ext_in. intros a I. apply E. apply in_app_iff. now right.
Qed.
Lemma mrels_ext r r' l l' : (forall a, In a (flat_map mgr_addrs l) -> r a = r' a) -> Forall2 (mrel r) l l' -> Forall2 (mrel r') l l'.
Proof.
  intros E F. induction F as [|x y l l' H F IH]; constructor.
  - apply (mrel_ext r); [|exact H]. intros a I. apply E. cbn. apply in_app_iff. now left.
  - apply IH. intros a I. apply E. cbn. apply in_app_iff. now right.
Qed.
Lemma views_ext r r' l : (forall a, In a (flat_map handle_addrs l) -> r a = r' a) -> map (option_map (vw r)) l = map (option_map (vw r')) l.
Proof.
  intros E. apply List.map_ext_in. intros [h|] I; [|reflexivity]. cbn. unfold vw. rewrite (E (h_addr h)); [reflexivity|]. apply in_flat_map. exists (Some h). split; [exact I|now left].
Qed.
Lemma pointers_mgr w a : In a (flat_map mgr_addrs (w_mgrs w)) -> In a (pointers w).
Proof. intros I. apply in_app_iff. now left. Qed.
Lemma pointers_handle w a : In a (flat_map handle_addrs (w_handles w)) -> In a (pointers w).
Proof. intros I. apply in_app_iff. now right. Qed.
(** the pointers when a manager is replaced *)
Lemma replaced_mgrs l m x b : In b (flat_map mgr_addrs (set_nth l m x)) -> In b (mgr_addrs x) \/ In b (flat_map mgr_addrs l).
Proof.
  revert m. induction l as [|y l IH]; intros [|m]; cbn [set_nth flat_map]; intros I; auto; apply in_app_iff in I as [I|I].
  - now left.
  - right. apply in_app_iff. now right.
  - right. apply in_app_iff. now left.
  - destruct (IH m I) as [K|K]; [now left|right; apply in_app_iff; now right].
Qed.
(** * A manager gets a file that is new, or loses one: the general step.  The heap is changed only where nothing that stays points to. *)
Lemma doc_kept y y' id : length (k_files y) <= length (k_files y') -> length (k_args y) <= length (k_args y') -> exists_doc y id -> exists_doc y' id.
Proof.
  intros Lf La (A & D). split; [exact A|]. unfold doc_of in *. destruct (id <? room)%N; [|destruct (N.eqb id no_unknown)]; apply nth_error_Some; apply nth_error_Some in D; lia.
Qed.
Definition upd (sg : addr -> nat) (a : addr) (k : nat) (b : addr) : nat := if Nat.eqb b a then k else sg b.
Lemma upd_same sg a k : upd sg a k a = k.
Proof. unfold upd. now rewrite Nat.eqb_refl. Qed.
Lemma upd_other sg a k b : b <> a -> upd sg a k b = sg b.
Proof. intros H. unfold upd. now rewrite (proj2 (Nat.eqb_neq b a) H). Qed.
(** The manager number [m] is replaced by [x'], whose pointers are old ones or [n]; the file at [n] is new or has been written, and nothing else points to it. *)
Lemma step_mgr sg w t m x x' y' h' n :
  Rs sg w t -> nth_error (w_mgrs w) m = Some (Some x) ->
  (forall a, a <> n -> In a (pointers w) -> nth_error h' a = nth_error (w_heap w) a) ->
  n < length h' -> length (w_heap w) <= length h' -> Forall (fun f => real_id (f_id f)) h' ->
  (forall a, In a (mgr_addrs (Some x')) -> a = n \/ In a (pointers w)) ->
  (forall a, In a (flat_map handle_addrs (w_handles w)) -> a <> n) ->
  (forall j z, j <> m -> nth_error (w_mgrs w) j = Some z -> ~ In n (mgr_addrs z)) ->
  mrel (rho (upd sg n (t_mark t)) h') (Some x') (Some y') ->
  Rs (upd sg n (t_mark t)) (mkWorld h' (set_nth (w_mgrs w) m (Some x')) (w_handles w)) (mkState (replaced (t_keepers t) m (Some y')) (t_views t) (S (t_mark t))).
Proof.
  intros (F & V & L & J & Fi) Em Eh Ln Lh Fh Px Hn On M.
  assert (Er : forall a, a <> n -> In a (pointers w) -> rho sg (w_heap w) a = rho (upd sg n (t_mark t)) h' a).
  { intros a Na I. unfold rho. rewrite (Eh a Na I), upd_other by exact Na. reflexivity. }
  assert (P : forall b, In b (pointers (mkWorld h' (set_nth (w_mgrs w) m (Some x')) (w_handles w))) -> b = n \/ In b (pointers w)).
  { intros b I. apply in_app_iff in I as [I|I]; cbn [w_mgrs w_handles] in I.
    - apply replaced_mgrs in I as [I|I]; [now apply Px|right; now apply pointers_mgr].
    - right. now apply pointers_handle. }
  unfold Rs. cbn [w_heap w_mgrs w_handles t_keepers t_views t_mark]. splits.
  - assert (Lm : m < length (w_mgrs w)) by (apply nth_error_Some; congruence).
    apply nth_error_split in Em as (l1 & l2 & Em & El). assert (G : forall j z, j <> m -> nth_error (w_mgrs w) j = Some z -> forall a, In a (mgr_addrs z) -> rho sg (w_heap w) a = rho (upd sg n (t_mark t)) h' a).
    { intros j z Nj Ej a I. apply Er; [intros ->; now apply (On j z)|]. apply pointers_mgr. apply in_flat_map. exists z. split; [eapply nth_error_In; eauto|exact I]. }
    clear - F M G Lm. revert m M G Lm. generalize (w_mgrs w) (t_keepers t) F. clear F. intros l l' F. induction F as [|a b l l' H F IH]; intros m M G Lm; [cbn in Lm; lia|]. destruct m; cbn [set_nth].
    + constructor; [exact M|]. apply (mrels_ext (rho sg (w_heap w))); [|exact F]. intros c I. apply in_flat_map in I as (z & Iz & I). apply In_nth_error in Iz as (j & Ej). apply (G (S j) z); [lia|exact Ej|exact I].
    + constructor; [apply (mrel_ext (rho sg (w_heap w))); [|exact H]; intros c I; apply (G 0 a); [lia|reflexivity|exact I]|]. apply IH; [exact M| |cbn in Lm; lia]. intros j z Nj Ej. apply (G (S j) z); [lia|exact Ej].
  - rewrite V. apply views_ext. intros a I. apply Er; [now apply Hn|now apply pointers_handle].
  - intros a I. destruct (P a I) as [->|Ia]; [split; [exact Ln|rewrite upd_same; lia]|]. destruct (Nat.eq_dec a n) as [->|Na]; [split; [exact Ln|rewrite upd_same; lia]|]. rewrite upd_other by exact Na. destruct (L a Ia). lia.
  - intros a b Ia Ib. assert (K : forall a, In a (pointers (mkWorld h' (set_nth (w_mgrs w) m (Some x')) (w_handles w))) -> a = n \/ a <> n /\ In a (pointers w)).
    { intros c Ic. destruct (Nat.eq_dec c n) as [|Nc]; [now left|right]. split; [exact Nc|]. now destruct (P c Ic). }
    destruct (K a Ia) as [->|[Na Ia']], (K b Ib) as [->|[Nb Ib']]; rewrite ?upd_same, ?upd_other by assumption; auto.
    + intros E. destruct (L b Ib'). lia.
    + intros E. destruct (L a Ia'). lia.
  - exact Fh.
Qed.
(** * Loading *)
Lemma by_uri_latest sg w t m x y n : Rs sg w t -> nth_error (w_mgrs w) m = Some (Some x) -> mrel (rho sg (w_heap w)) (Some x) (Some y) ->
  latest y n = option_map (rho sg (w_heap w)) (mgr_by_uri x n) /\ (forall a, mgr_by_uri x n = Some a -> In a (pointers w)).
Proof.
  intros H Em M. pose proof M as (_ & _ & _ & Lg & Ex). unfold latest, mgr_by_uri, mgr_find. rewrite Lg. destruct (lookup (as_str n) (m_uris x)) as [id|] eqn:E; [|split; [reflexivity|discriminate]].
  destruct (Ex _ _ E) as [A _]. split; [now apply (get_doc _ x y id M)|]. intros a G. eapply got_pointer; eauto.
Qed.
Lemma same_ok sg w t m x y n text : Rs sg w t -> nth_error (w_mgrs w) m = Some (Some x) -> mrel (rho sg (w_heap w)) (Some x) (Some y) ->
  exists o, match lookup (as_str n) (m_uris x) with
             | Some id => match mgr_get x id with
                          | Some a => Val (if str_eqb (file_text (w_heap w) a) text then Some a else None)
                          | None => Panic
                          end
             | None => Val None
             end = Val o /\ already y n text = option_map (rho sg (w_heap w)) o /\ (forall a, o = Some a -> In a (pointers w)).
Proof.
  intros H Em M. destruct (by_uri_latest sg w t m x y n H Em M) as [El Ep]. unfold already. rewrite El. unfold mgr_by_uri, mgr_find in *. pose proof M as (_ & _ & _ & Lg & Ex).
  destruct (lookup (as_str n) (m_uris x)) as [id|] eqn:E; [|exists None; splits; [reflexivity|reflexivity|discriminate]]. destruct (Ex _ _ E) as [A D]. rewrite (get_doc _ x y id M A) in D.
  destruct (mgr_get x id) as [a|] eqn:G; [|now elim D]. pose proof (Ep a eq_refl) as I. destruct (live_file sg w t a H I) as (f & Ef & Er & _ & Et). cbn [option_map]. rewrite Et. unfold text_of. rewrite Er. cbn [d_src].
  exists (if str_eqb (s_text (f_src f)) text then Some a else None). split; [reflexivity|]. destruct (list_eq_dec N.eq_dec (s_text (f_src f)) text) as [Q|Q].
  - rewrite Q, str_eqb_refl. cbn [option_map]. rewrite Er. split; [reflexivity|]. intros b [= <-]. exact I.
  - rewrite (proj2 (str_eqb_neq _ _) Q). split; [reflexivity|discriminate].
Qed.
Lemma set_nth_mgr l m (x : option manager) : m < length l -> nth_error (set_nth l m x) m = Some x.
Proof. intros H. rewrite nth_set, Nat.eqb_refl. now rewrite (proj2 (Nat.ltb_lt _ _) H). Qed.
Lemma rho_old sg h f k a : a < length h -> rho (upd sg (length h) k) (h ++ [f]) a = rho sg h a.
Proof. intros H. unfold rho. rewrite nth_error_app1 by exact H. rewrite upd_other by lia. reflexivity. Qed.
Lemma rho_new sg h f k : rho (upd sg (length h) k) (h ++ [f]) (length h) = mkDoc k (f_id f) (f_name f) (f_src f).
Proof. unfold rho. rewrite nth_error_app2, Nat.sub_diag by lia. cbn. now rewrite upd_same. Qed.
Lemma load_new sg w t m x y (arg : bool) uri name src k id :
  Rs sg w t -> nth_error (w_mgrs w) m = Some (Some x) -> mrel (rho sg (w_heap w)) (Some x) (Some y) ->
  k = length (if arg then m_args x else m_files x) -> (N.of_nat k < room)%N -> id = (if arg then no_argument k else no_file k) ->
  let h' := w_heap w ++ [mkFile id name src] in
  let x' := if arg then mkManager (m_files x) (m_args x ++ [length (w_heap w)]) (bt_insert (as_str uri) id (m_uris x)) else mkManager (m_files x ++ [length (w_heap w)]) (m_args x) (bt_insert (as_str uri) id (m_uris x)) in
  let d := mkDoc (t_mark t) id name src in
  let y' := mkKeeper (if arg then k_files y else k_files y ++ [d]) (if arg then k_args y ++ [d] else k_args y) ((as_str uri, id) :: k_log y) in
  let w' := mkWorld h' (set_nth (w_mgrs w) m (Some x')) (w_handles w) in
  Rs (upd sg (length (w_heap w)) (t_mark t)) w' (mkState (replaced (t_keepers t) m (Some y')) (t_views t) (S (t_mark t))) /\
  In (length (w_heap w)) (pointers w') /\ rho (upd sg (length (w_heap w)) (t_mark t)) h' (length (w_heap w)) = d.
Proof.
  intros H Em M Ek Lk Ei h' x' d y' w'. pose proof H as (F & V & L & J & Fi). pose proof M as (Mf & Ma & So & Lg & Ex).
  assert (Hm : m < length (w_mgrs w)) by (apply nth_error_Some; congruence).
  assert (Old : forall a, In a (pointers w) -> a <> length (w_heap w)) by (intros a I; destruct (L a I); lia).
  assert (Px : forall a, In a (m_files x ++ m_args x) -> In a (pointers w)) by (intros a; now apply (mgr_pointer w m)).
  assert (Mo : forall l, (forall a, In a l -> In a (m_files x ++ m_args x)) -> map (rho (upd sg (length (w_heap w)) (t_mark t)) h') l = map (rho sg (w_heap w)) l).
  { intros l Hl. apply List.map_ext_in. intros a I. apply rho_old. destruct (L a (Px a (Hl a I))). exact H0. }
  assert (Nd : rho (upd sg (length (w_heap w)) (t_mark t)) h' (length (w_heap w)) = d) by apply rho_new.
  splits; [|apply (mgr_pointer w' m x'); [apply set_nth_mgr; exact Hm|]; unfold x'; destruct arg; cbn [m_files m_args]; rewrite !in_app_iff; cbn; tauto|exact Nd].
  apply (step_mgr sg w t m x); auto.
  - intros a Na I. unfold h'. apply nth_error_app1. now destruct (L a I).
  - unfold h'. rewrite app_length. cbn. lia.
  - unfold h'. rewrite app_length. lia.
  - apply Forall_app. split; [exact Fi|]. constructor; [|constructor]. cbn. exists k. split; [exact Lk|]. subst id. destruct arg; auto.
  - intros a I. unfold x' in I. destruct arg; cbn [mgr_addrs m_files m_args] in I; rewrite !in_app_iff in I.
    + destruct I as [I|[I|[<-|[]]]]; [right|right|now left]; apply Px; apply in_app_iff; tauto.
    + destruct I as [[I|[<-|[]]]|I]; [right|now left|right]; apply Px; apply in_app_iff; tauto.
  - intros a I. apply Old. now apply pointers_handle.
  - intros j z _ Ej I. refine (Old _ _ eq_refl). apply pointers_mgr. apply in_flat_map. exists z. split; [eapply nth_error_In; eauto|exact I].
  - cbn [mrel]. unfold x', y'. splits.
    + destruct arg; cbn [m_files k_files]; [|rewrite map_app; cbn [map]; rewrite Nd]; rewrite Mo, Mf; auto; intros a I; apply in_app_iff; auto.
    + destruct arg; cbn [m_args k_args]; [rewrite map_app; cbn [map]; rewrite Nd|]; rewrite Mo, Ma; auto; intros a I; apply in_app_iff; auto.
    + destruct arg; now apply bt_insert_sorted.
    + intros n. cbn [k_log lookup fst]. destruct arg; cbn [m_uris]; rewrite lookup_bt_insert by exact So; rewrite <- Lg; destruct (str_eqb (as_str uri) n) eqn:Q; cbn [lookup]; rewrite ?Q; try reflexivity.
    + intros n i. assert (Eq : lookup n (m_uris x') = if str_eqb (as_str uri) n then Some id else lookup n (m_uris x)) by (unfold x'; destruct arg; cbn [m_uris]; now rewrite lookup_bt_insert by exact So).
      fold x' y'. rewrite Eq. destruct (str_eqb (as_str uri) n); intros Q.
      * injection Q as <-. split; [right; exists k; split; [exact Lk|]; subst id; destruct arg; auto|]. unfold doc_of, y'. subst id. destruct arg; cbn [k_files k_args].
        -- unfold no_argument, no_unknown, room in *. destruct (N.ltb_spec (254 * 16777216 + N.of_nat k) 16777216); [lia|]. destruct (N.eqb_spec (254 * 16777216 + N.of_nat k) 4294967295); [lia|]. apply nth_error_Some. rewrite Ma, app_length, map_length, <- Ek. cbn [length]. lia.
        -- unfold no_file. rewrite (proj2 (N.ltb_lt _ _) Lk). apply nth_error_Some. rewrite Mf, app_length, map_length, <- Ek. cbn [length]. lia.
      * apply (doc_kept y); [unfold y'; destruct arg; cbn; rewrite ?app_length; lia..|]. now apply (Ex n).
Qed.
Lemma set_same {A} (l : list A) : forall m x, nth_error l m = Some x -> set_nth l m x = l.
Proof. induction l as [|y l IH]; intros [|m] x E; try discriminate; cbn in *; [congruence|]. f_equal. now apply IH. Qed.
Lemma load_ok sg w t m (arg : bool) uri name src : Rs sg w t ->
  snd (load_raw w m (if arg then g_argument else g_file) uri name src) = snd (loads t m arg uri name src) /\ R (fst (load_raw w m (if arg then g_argument else g_file) uri name src)) (fst (loads t m arg uri name src)).
Proof.
  intros H. unfold load_raw, loads. apply (with_on w t sg m _ _ H). intros x y Em Ey M. destruct (same_ok sg w t m x y uri (s_text src) H Em M) as (o & Eo & Al & Po). unfold mgr_insert. rewrite Eo, Al. cbn [bind]. clear Eo Al.
  destruct o as [a|]; cbn [option_map].
  - rewrite (set_same _ m _ Em). replace (mkWorld (w_heap w) (w_mgrs w) (w_handles w)) with w by (destruct w; reflexivity). apply (give_returns_doc sg); auto.
  - pose proof M as (Mf & Ma & _). destruct arg.
    + change (N.eqb g_argument g_file) with false. change (N.eqb g_argument g_argument) with true. cbv iota. rewrite new_argument_id. assert (El : length (k_args y) = length (m_args x)) by (rewrite Ma; apply map_length). rewrite El.
      destruct (N.ltb_spec (N.of_nat (length (m_args x))) room) as [Lk|Lk]; cbn [bind]; [|split; [reflexivity|now exists sg]].
      destruct (load_new sg w t m x y true uri name src _ _ H Em M eq_refl Lk eq_refl) as (H' & I' & E'). cbv zeta in *. apply (give_returns_doc _ _ _ _ _ H' I' E').
    + change (N.eqb g_file g_file) with true. cbv iota. rewrite new_file_id. assert (El : length (k_files y) = length (m_files x)) by (rewrite Mf; apply map_length). rewrite El.
      destruct (N.ltb_spec (N.of_nat (length (m_files x))) room) as [Lk|Lk]; cbn [bind]; [|split; [reflexivity|now exists sg]].
      destruct (load_new sg w t m x y false uri name src _ _ H Em M eq_refl Lk eq_refl) as (H' & I' & E'). cbv zeta in *. apply (give_returns_doc _ _ _ _ _ H' I' E').
Qed.
(** * Writing *)
Lemma map_set {A B} (f : A -> B) l : forall k x, map f (set_nth l k x) = set_nth (map f l) k (f x).
Proof. induction l; intros [|k] x; cbn; auto. now rewrite IHl. Qed.
Lemma count_none a l : count a l = 0 -> ~ In a l.
Proof. intros H. now apply count_occ_not_In in H. Qed.
Lemma count_app a l l' : count a (l ++ l') = count a l + count a l'.
Proof. apply count_occ_app. Qed.
Lemma count_in a l : In a l -> 1 <= count a l.
Proof. intros H. apply (count_occ_In Nat.eq_dec) in H. exact H. Qed.
Lemma slots_in x arg a : In a (slots x arg) -> In a (m_files x ++ m_args x).
Proof. intros I. apply in_app_iff. destruct arg; auto. Qed.
(** the only pointer *)
Lemma only_pointer w m x arg k a : nth_error (w_mgrs w) m = Some (Some x) -> nth_error (slots x arg) k = Some a -> strong_count w a = 1 ->
  (forall b, In b (flat_map handle_addrs (w_handles w)) -> b <> a) /\
  (forall j z, j <> m -> nth_error (w_mgrs w) j = Some z -> ~ In a (mgr_addrs z)) /\
  (exists l1 l2, slots x arg = l1 ++ a :: l2 /\ length l1 = k /\ ~ In a l1 /\ ~ In a l2) /\ ~ In a (slots x (negb arg)).
Proof.
  intros Em Ea C. unfold strong_count, pointers in C. rewrite count_app in C. pose proof (slots_in x arg a (nth_error_In _ _ Ea)) as Ix. apply count_in in Ix.
  apply nth_error_split in Em as (M1 & M2 & Em & Lm). rewrite Em, flat_map_app in C. cbn [flat_map mgr_addrs] in C. rewrite !count_app in C. rewrite count_app in Ix.
  apply nth_error_split in Ea as (l1 & l2 & Es & Lk). assert (Cs : count a (slots x arg) = count a l1 + 1 + count a l2).
  { rewrite Es, count_app. unfold count. cbn [count_occ]. destruct (Nat.eq_dec a a); [lia|congruence]. }
  assert (Cx : count a (m_files x) + count a (m_args x) = count a (slots x arg) + count a (slots x (negb arg))) by (destruct arg; cbn [slots negb]; lia). splits.
  - intros b Ib ->. apply count_in in Ib. lia.
  - intros j z Nj Ej I. rewrite Em in Ej. assert (K : In z M1 \/ In z M2).
    { destruct (Nat.lt_ge_cases j (length M1)) as [L|L]; [rewrite nth_error_app1 in Ej by exact L; left; eapply nth_error_In; eauto|]. rewrite nth_error_app2 in Ej by exact L. destruct (j - length M1) as [|i] eqn:E; [lia|]. right. cbn in Ej. eapply nth_error_In; eauto. }
    assert (Q : forall Ms, In z Ms -> 1 <= count a (flat_map mgr_addrs Ms)) by (intros Ms Iz; apply count_in; apply in_flat_map; eauto). destruct K as [K|K]; apply Q in K; lia.
  - exists l1, l2. splits; auto; apply count_none; lia.
  - apply count_none. lia.
Qed.
Lemma writes_len t m x arg k d src : t_mark (writes t m x arg k d src) = S (t_mark t).
Proof. reflexivity. Qed.
Section Write.
Context (sg : addr -> nat) (w : world) (t : state) (m : nat) (x : manager) (y : keeper) (arg : bool) (k : nat) (a : addr) (f : file) (src : source).
Context (H : Rs sg w t) (Em : nth_error (w_mgrs w) m = Some (Some x)) (M : mrel (rho sg (w_heap w)) (Some x) (Some y)) (Ea : nth_error (slots x arg) k = Some a) (Ef : nth_error (w_heap w) a = Some f).
Notation f' := (mkFile (f_id f) (f_name f) src).
Notation d := (rho sg (w_heap w) a).
Lemma slot_live : In a (pointers w).
Proof. apply (mgr_pointer w m x a Em). apply (slots_in x arg). eapply nth_error_In; eauto. Qed.
Lemma kept_docs x' y' r' : m_uris x' = m_uris x -> k_log y' = k_log y -> k_files y' = map r' (m_files x') -> k_args y' = map r' (m_args x') -> length (m_files x') = length (m_files x) -> length (m_args x') = length (m_args x) -> mrel r' (Some x') (Some y').
Proof.
  intros Eu El Kf Ka Lf La. pose proof M as (Mf & Ma & So & Lg & Ex). cbn [mrel]. rewrite Eu, El. splits; auto. intros n id E. apply (doc_kept y); [rewrite Kf, Mf, !map_length; lia|rewrite Ka, Ma, !map_length; lia|now apply (Ex n)].
Qed.
Lemma write_in_place : strong_count w a = 1 -> Rs (upd sg a (t_mark t)) (mkWorld (set_nth (w_heap w) a f') (w_mgrs w) (w_handles w)) (writes t m y arg k d src).
Proof.
  intros C. destruct (only_pointer w m x arg k a Em Ea C) as (Nh & No & (l1 & l2 & Es & Lk & N1 & N2) & Nn). pose proof H as (F & V & L & J & Fi). pose proof M as (Mf & Ma & So & Lg & Ex).
  assert (La : a < length (w_heap w)) by (apply nth_error_Some; congruence).
  pose proof (set_same (w_mgrs w) m (Some x) Em) as Same. unfold writes. rewrite <- Same.
  assert (Old : forall b, b <> a -> rho (upd sg a (t_mark t)) (set_nth (w_heap w) a f') b = rho sg (w_heap w) b).
  { intros b Nb. unfold rho. rewrite nth_set, (proj2 (Nat.eqb_neq b a) Nb), upd_other by exact Nb. reflexivity. }
  assert (New : rho (upd sg a (t_mark t)) (set_nth (w_heap w) a f') a = mkDoc (t_mark t) (d_id d) (d_name d) src).
  { unfold rho. rewrite nth_set, Nat.eqb_refl, (proj2 (Nat.ltb_lt _ _) La), Ef, upd_same. reflexivity. }
  assert (Mo : forall l, ~ In a l -> map (rho (upd sg a (t_mark t)) (set_nth (w_heap w) a f')) l = map (rho sg (w_heap w)) l).
  { intros l Nl. apply List.map_ext_in. intros b I. apply Old. intros ->. now apply Nl. }
  apply (step_mgr sg w t m x); auto.
  - intros b Nb _. rewrite nth_set. now rewrite (proj2 (Nat.eqb_neq b a) Nb).
  - now rewrite set_nth_len.
  - now rewrite set_nth_len.
  - apply Forall_forall. intros g I. apply In_nth_error in I as (j & I). rewrite nth_set in I. rewrite Forall_forall in Fi. destruct (j =? a).
    + rewrite (proj2 (Nat.ltb_lt _ _) La) in I. injection I as <-. cbn. apply Fi. eapply nth_error_In; eauto.
    + apply Fi. eapply nth_error_In; eauto.
  - intros b I. right. now apply (mgr_pointer w m x b Em).
  - destruct arg; apply kept_docs; cbn [k_log k_files k_args slots negb] in *; auto.
    + now rewrite Mo.
    + rewrite Ma, Es, !map_app. cbn [map]. rewrite New, (Mo l1 N1), (Mo l2 N2). rewrite <- Lk, <- (map_length (rho sg (w_heap w)) l1). apply replaced_split.
    + rewrite Mf, Es, !map_app. cbn [map]. rewrite New, (Mo l1 N1), (Mo l2 N2). rewrite <- Lk, <- (map_length (rho sg (w_heap w)) l1). apply replaced_split.
    + now rewrite Mo.
Qed.
Lemma write_copy : Rs (upd sg (length (w_heap w)) (t_mark t)) (mkWorld (w_heap w ++ [f']) (set_nth (w_mgrs w) m (Some (set_slots x arg (set_nth (slots x arg) k (length (w_heap w)))))) (w_handles w)) (writes t m y arg k d src).
Proof.
  pose proof H as (F & V & L & J & Fi). pose proof M as (Mf & Ma & So & Lg & Ex). assert (Lk : k < length (slots x arg)) by (apply nth_error_Some; congruence).
  assert (Old : forall b, In b (pointers w) -> b <> length (w_heap w)) by (intros b I; destruct (L b I); lia).
  assert (Px : forall b, In b (m_files x ++ m_args x) -> In b (pointers w)) by (intros b; now apply (mgr_pointer w m)).
  assert (Mo : forall l, (forall b, In b l -> In b (m_files x ++ m_args x)) -> map (rho (upd sg (length (w_heap w)) (t_mark t)) (w_heap w ++ [f'])) l = map (rho sg (w_heap w)) l).
  { intros l Hl. apply List.map_ext_in. intros b I. apply rho_old. now destruct (L b (Px b (Hl b I))). }
  assert (Ms : forall l, (forall b, In b l -> In b (m_files x ++ m_args x)) -> k < length l -> replaced (map (rho sg (w_heap w)) l) k (mkDoc (t_mark t) (d_id d) (d_name d) src) = map (rho (upd sg (length (w_heap w)) (t_mark t)) (w_heap w ++ [f'])) (set_nth l k (length (w_heap w)))).
  { intros l Hl Ll. rewrite map_set, rho_new, Mo by exact Hl. rewrite set_replaced by (now rewrite map_length). cbn [f_id f_name f_src]. unfold rho at 2 3. rewrite Ef. reflexivity. }
  assert (Xs : forall b, In b (set_nth (slots x arg) k (length (w_heap w))) -> b = length (w_heap w) \/ In b (pointers w)).
  { intros b I. apply In_nth_error in I as (j & I). rewrite nth_set in I. destruct (j =? k); [rewrite (proj2 (Nat.ltb_lt _ _) Lk) in I; injection I as <-; now left|]. right. apply Px. apply (slots_in x arg). eapply nth_error_In; eauto. }
  unfold writes. apply (step_mgr sg w t m x); auto.
  - intros b Nb I. apply nth_error_app1. now destruct (L b I).
  - rewrite app_length. cbn. lia.
  - rewrite app_length. lia.
  - apply Forall_app. split; [exact Fi|]. constructor; [|constructor]. cbn. rewrite Forall_forall in Fi. apply Fi. eapply nth_error_In; eauto.
  - intros b I. destruct arg; cbn [set_slots mgr_addrs m_files m_args slots] in *; apply in_app_iff in I as [I|I]; auto; right; apply Px; apply in_app_iff; auto.
  - intros b I. apply Old. now apply pointers_handle.
  - intros j z _ Ej I. refine (Old _ _ eq_refl). apply pointers_mgr. apply in_flat_map. exists z. split; [eapply nth_error_In; eauto|exact I].
  - destruct arg; apply kept_docs; cbn [set_slots slots m_uris m_files m_args k_log k_files k_args] in *; rewrite ?set_nth_len; auto.
    + rewrite Mo; [exact Mf|]. intros b I. apply in_app_iff. now left.
    + rewrite Ma. apply Ms; [|exact Lk]. intros b I. apply in_app_iff. now right.
    + rewrite Mf. apply Ms; [|exact Lk]. intros b I. apply in_app_iff. now left.
    + rewrite Mo; [exact Ma|]. intros b I. apply in_app_iff. now right.
Qed.
End Write.
Lemma write_ok sg w t m x y arg k a text range version : Rs sg w t -> nth_error (w_mgrs w) m = Some (Some x) -> mrel (rho sg (w_heap w)) (Some x) (Some y) -> nth_error (slots x arg) k = Some a ->
  let d := rho sg (w_heap w) a in
  let u := update (d_src d) text range version in
  snd (write w m x arg k a text range version) = match u with Val (inl _) => Val (inl tt) | Val (inr e) => Val (inr e) | Err => Err | Panic => Panic end /\
  R (fst (write w m x arg k a text range version)) (writes t m y arg k d (match u with Val (inl src) => src | _ => d_src d end)).
Proof.
  intros H Em M Ea d u. destruct (live_file sg w t a H (slot_live w m x arg k a Em Ea)) as (f & Ef & Er & _ & _). assert (Ed : d_src d = f_src f) by (unfold d; now rewrite Er). unfold u. rewrite Ed. clear u Ed.
  unfold write, make_mut. destruct (Nat.eqb_spec (strong_count w a) 1) as [C|C].
  - rewrite Ef. assert (K : forall src, Rs (upd sg a (t_mark t)) (mkWorld (set_nth (w_heap w) a (mkFile (f_id f) (f_name f) src)) (w_mgrs w) (w_handles w)) (writes t m y arg k d src)) by (intros src; eapply write_in_place; eauto).
    assert (Same : R w (writes t m y arg k d (f_src f))).
    { exists (upd sg a (t_mark t)). specialize (K (f_src f)). rewrite set_same in K by (rewrite Ef; destruct f; reflexivity). destruct w; exact K. }
    destruct (update (f_src f) text range version) as [[src|e]| |]; cbn [fst snd]; split; try reflexivity; try exact Same. eexists; apply K.
  - rewrite Ef. cbn [w_heap w_mgrs w_handles]. rewrite nth_error_app2, Nat.sub_diag by lia. cbn [nth_error].
    assert (K : forall src, R (mkWorld (w_heap w ++ [mkFile (f_id f) (f_name f) src]) (set_nth (w_mgrs w) m (Some (set_slots x arg (set_nth (slots x arg) k (length (w_heap w)))))) (w_handles w)) (writes t m y arg k d src)) by (intros src; eexists; eapply write_copy; eauto).
    pose proof (K (f_src f)) as Same. replace (mkFile (f_id f) (f_name f) (f_src f)) with f in Same by (destruct f; reflexivity).
    destruct (update (f_src f) text range version) as [[src|e]| |]; cbn [fst snd]; split; try reflexivity; try exact Same. rewrite set_split. apply K.
Qed.
(** * Every call *)
Lemma fewer sg w t mgrs keepers handles views : Rs sg w t -> Forall2 (mrel (rho sg (w_heap w))) mgrs keepers -> views = map (option_map (vw (rho sg (w_heap w)))) handles ->
  (forall a, In a (flat_map mgr_addrs mgrs) -> In a (pointers w)) -> (forall a, In a (flat_map handle_addrs handles) -> In a (pointers w)) ->
  R (mkWorld (w_heap w) mgrs handles) (mkState keepers views (t_mark t)).
Proof.
  intros (F & V & L & J & Fi) F' V' Pm Ph. exists sg. unfold Rs. cbn [w_heap w_mgrs w_handles t_keepers t_views t_mark].
  assert (P : forall a, In a (pointers (mkWorld (w_heap w) mgrs handles)) -> In a (pointers w)) by (intros a I; apply in_app_iff in I as [I|I]; auto).
  splits; [exact F'|exact V'|intros a I; apply L; auto|intros a b Ia Ib; apply J; auto|exact Fi].
Qed.
Lemma stays sg w t an : Rs sg w t -> snd (w, an : answer) = snd (t, an) /\ R (fst (w, an)) (fst (t, an)).
Proof. intros H. split; [reflexivity|now exists sg]. Qed.
Lemma replaced_handles l h b : In b (flat_map handle_addrs (set_nth l h None)) -> In b (flat_map handle_addrs l).
Proof.
  revert h. induction l as [|y l IH]; intros [|m]; cbn [set_nth flat_map handle_addrs]; intros I; auto; [apply in_app_iff; now right|].
  apply in_app_iff in I as [I|I]; apply in_app_iff; [now left|right; now apply (IH m)].
Qed.
Lemma id_kind id : an_id id -> id <> no_unknown -> N.eqb (group id) g_unknown = false /\ N.eqb (group id) g_argument = is_argument id /\
  to_index id = N.to_nat (if is_argument id then id - 254 * room else id)%N /\ forall x, mgr_get x id = nth_error (slots x (is_argument id)) (to_index id).
Proof.
  intros [->|(k & L & [-> | ->])] Nu; [congruence| |].
  - destruct (file_id k L) as (I & G & C & A). rewrite G, A, I. splits; try reflexivity; [unfold no_file; now rewrite Nat2N.id|]. intros x. unfold mgr_get. now rewrite C, I.
  - destruct (arg_id k L) as (I & G & C & A). rewrite G, A, I. splits; try reflexivity; [|intros x; unfold mgr_get; now rewrite C, I]. unfold no_argument. lia.
Qed.
Lemma real_an id : real_id id -> an_id id.
Proof. intros H. now right. Qed.
Lemma real_known id : real_id id -> id <> no_unknown.
Proof. intros (k & L & [-> | ->]); unfold no_file, no_argument, no_unknown, room in *; lia. Qed.
Lemma real_group id : real_id id -> group id = if is_argument id then g_argument else g_file.
Proof. intros (k & L & [-> | ->]); [destruct (file_id k L) as (I & G & C & A)|destruct (arg_id k L) as (I & G & C & A)]; now rewrite A, G. Qed.
Theorem step_does w t c : R w t -> (forall id, In id (ids_of c) -> an_id id) -> snd (step w c) = snd (does t c) /\ R (fst (step w c)) (fst (does t c)).
Proof.
  intros (sg & H) Ids. pose proof H as (F & V & L & J & Fi). assert (Same : R (mkWorld (w_heap w) (w_mgrs w) (w_handles w)) (mkState (t_keepers t) (t_views t) (t_mark t))) by (exists sg; destruct w, t; exact H).
  destruct c; cbn [step does ids_of] in *.
  - (* new *) split; [reflexivity|]. cbn [fst]. apply (fewer sg w t); auto.
    + apply Forall2_app; [exact F|]. constructor; [|constructor]. cbn. splits; auto. intros n id E; discriminate.
    + intros a I. rewrite flat_map_app in I. cbn in I. rewrite app_nil_r in I. now apply pointers_mgr.
    + intros a I. now apply pointers_handle.
  - (* clone *) apply (with_on w t sg m _ _ H). intros x y Em Ey M. split; [reflexivity|]. cbn [fst]. apply (fewer sg w t); auto.
    + apply Forall2_app; [exact F|]. constructor; [exact M|constructor].
    + intros a I. rewrite flat_map_app in I. cbn [flat_map] in I. rewrite app_nil_r in I. apply in_app_iff in I as [I|I]; [now apply pointers_mgr|now apply (mgr_pointer w m x a Em)].
    + intros a I. now apply pointers_handle.
  - (* drop *) apply (with_on w t sg m _ _ H). intros x y Em Ey M. split; [reflexivity|]. cbn [fst]. unfold keeps. apply (fewer sg w t); auto.
    + apply forall2_replaced; [exact F|apply nth_error_Some; congruence|exact I].
    + intros a I. apply replaced_mgrs in I as [[]|I]. now apply pointers_mgr.
    + intros a I. now apply pointers_handle.
  - exact (load_ok sg w t m false name name (source_new text) H).
  - rewrite <- text_named. exact (load_ok sg w t m true (FVirtual name) (from_text name) (source_new text) H).
  - (* raw *) change (no_file 0) with g_file. change (no_argument 0) with g_argument. destruct (N.eqb_spec grp g_file) as [->|Ng]; [exact (load_ok sg w t m false uri name (source_new text) H)|].
    destruct (N.eqb_spec grp g_argument) as [->|Na]; [exact (load_ok sg w t m true uri name (source_new text) H)|]. unfold load_raw. apply (with_on w t sg m _ _ H). intros x y Em Ey M.
    destruct (same_ok sg w t m x y uri text H Em M) as (o & Eo & Al & Po). unfold mgr_insert. cbn [s_text source_new]. rewrite Eo, Al. cbn [bind]. destruct o as [a|]; cbn [option_map].
    + rewrite (set_same _ m _ Em). replace (mkWorld (w_heap w) (w_mgrs w) (w_handles w)) with w by (destruct w; reflexivity). apply (give_returns_doc sg); auto.
    + rewrite (proj2 (N.eqb_neq _ _) Ng), (proj2 (N.eqb_neq _ _) Na). now apply (stays sg).
  - (* update *) specialize (Ids id (or_introl eq_refl)). apply (with_on w t sg m _ _ H). intros x y Em Ey M. destruct (N.eqb_spec id no_unknown) as [->|Nu].
    + destruct unknown_facts as (_ & G & _). rewrite G, N.eqb_refl. now apply (stays sg).
    + destruct (id_kind id Ids Nu) as (G1 & G2 & Ix & Gt). rewrite G1, G2, (get_doc _ x y id M Ids), Gt. destruct (nth_error (slots x (is_argument id)) (to_index id)) as [a|] eqn:Ea; cbn [option_map]; [|now apply (stays sg)].
      destruct (write_ok sg w t m x y (is_argument id) (to_index id) a text range version H Em M Ea) as [S1 S2]. cbv zeta in *. rewrite <- Ix.
      destruct (write w m x (is_argument id) (to_index id) a text range version) as [w' r]. cbn [fst snd] in *. subst r.
      destruct (update (d_src (rho sg (w_heap w) a)) text range version) as [[src|e]| |]; cbn [fst snd]; auto.
  - (* get *) specialize (Ids id (or_introl eq_refl)). apply (with_on w t sg m _ _ H). intros x y Em Ey M. rewrite (get_doc _ x y id M Ids). destruct (mgr_get x id) as [a|] eqn:G; cbn [option_map]; [|now apply (stays sg)]. apply (give_returns_doc sg); auto. eapply got_pointer; eauto.
  - (* by name *) apply (with_on w t sg m _ _ H). intros x y Em Ey M. destruct (by_uri_latest sg w t m x y n H Em M) as [-> P]. destruct (mgr_by_uri x n) as [a|]; cbn [option_map]; [|now apply (stays sg)]. apply (give_returns_doc sg); auto.
  - (* find *) apply (with_on w t sg m _ _ H). intros x y Em Ey M. pose proof M as (_ & _ & _ & Lg & _). unfold mgr_find. rewrite Lg. now apply (stays sg).
  - (* slice *) specialize (Ids id (or_introl eq_refl)). apply (with_on w t sg m _ _ H). intros x y Em Ey M. rewrite (get_doc _ x y id M Ids). destruct (mgr_get x id) as [a|] eqn:G; cbn [option_map]; [|now apply (stays sg)].
    assert (I : In a (pointers w)) by (eapply got_pointer; eauto). destruct (live_file sg w t a H I) as (f & Ef & Er & _ & Et). assert (E : file_text (w_heap w) a = text_of (rho sg (w_heap w) a)) by (rewrite Et, Er; reflexivity). rewrite E.
    destruct (Nat.leb_spec s e) as [Le|Le]; [|now apply (stays sg)]. destruct (str_get (text_of (rho sg (w_heap w) a)) s e) as [r|] eqn:Q; [|now apply (stays sg)].
    assert (Lt : e <= length (text_of (rho sg (w_heap w) a))).
    { unfold str_get in Q. destruct ((s <=? e) && (e <=? length (text_of (rho sg (w_heap w) a))) && _ && _) eqn:B; [|discriminate]. rewrite !andb_true_iff in B. apply Nat.leb_le. tauto. }
    rewrite Nat.min_l by exact Lt. rewrite (proj2 (Nat.leb_le _ _) Le). now apply (give_returns sg).
  - (* source *) specialize (Ids id (or_introl eq_refl)). apply (with_on w t sg m _ _ H). intros x y Em Ey M. rewrite (get_doc _ x y id M Ids). destruct (mgr_get x id) as [a|] eqn:G; cbn [option_map]; [|now apply (stays sg)]. apply (give_returns_doc sg); auto. eapply got_pointer; eauto.
  - (* location *) specialize (Ids id (or_introl eq_refl)). apply (with_on w t sg m _ _ H). intros x y Em Ey M. rewrite (get_doc _ x y id M Ids). destruct (mgr_get x id) as [a|] eqn:G; cbn [option_map]; [|now apply (stays sg)].
    destruct (live_file sg w t a H (got_pointer w m x id a Em G)) as (f & -> & -> & _ & _). now apply (stays sg).
  - (* to span *) apply (with_on w t sg m _ _ H). intros x y Em Ey M. destruct (by_uri_latest sg w t m x y n H Em M) as [-> P]. destruct (mgr_by_uri x n) as [a|]; cbn [option_map]; [|now apply (stays sg)].
    destruct (live_file sg w t a H (P a eq_refl)) as (f & -> & -> & _ & _). now apply (stays sg).
  - (* manages *) apply (with_on w t sg m _ _ H). intros x y Em Ey M. apply (with_view w t sg h _ _ H). intros z Ez _. assert (Iz : In (h_addr z) (pointers w)) by (eapply handle_pointer; eauto).
    destruct (live_file sg w t _ H Iz) as (f & Ef & Er & Ri & _). rewrite Ef. cbn [vw v_doc]. rewrite Er. cbn [d_id d_mark]. rewrite (get_doc _ x y (f_id f) M (real_an _ Ri)). destruct (mgr_get x (f_id f)) as [a|] eqn:G; cbn [option_map]; [|now apply (stays sg)].
    assert (Ia : In a (pointers w)) by (eapply got_pointer; eauto). destruct (live_file sg w t a H Ia) as (f2 & _ & -> & _ & _). cbn [d_mark]. replace (a =? h_addr z) with (sg a =? sg (h_addr z)); [now apply (stays sg)|].
    destruct (Nat.eqb_spec a (h_addr z)) as [->|N1]; [apply Nat.eqb_refl|]. apply Nat.eqb_neq. intros E. apply N1. now apply J.
  - (* copy into *) apply (with_on w t sg m _ _ H). intros x y Em Ey M. apply (with_view w t sg h _ _ H). intros z Ez _. assert (Iz : In (h_addr z) (pointers w)) by (eapply handle_pointer; eauto).
    destruct (live_file sg w t _ H Iz) as (f & Ef & Er & Ri & _). rewrite Ef. cbn [vw v_doc]. rewrite Er. cbn [d_id d_mark d_name d_src]. rewrite (get_doc _ x y (f_id f) M (real_an _ Ri)), (real_group _ Ri).
    pose proof (load_ok sg w t m (is_argument (f_id f)) (f_name f) (f_name f) (f_src f) H) as Lo. destruct (mgr_get x (f_id f)) as [a|] eqn:G; cbn [option_map]; [|exact Lo].
    assert (Ia : In a (pointers w)) by (eapply got_pointer; eauto). destruct (live_file sg w t a H Ia) as (f2 & _ & Er2 & _ & _). rewrite Er2. cbn [d_mark]. destruct (Nat.eqb_spec a (h_addr z)) as [->|N1].
    + rewrite Nat.eqb_refl. apply (give_returns_doc sg); auto.
    + destruct (Nat.eqb_spec (sg a) (sg (h_addr z))) as [E|_]; [elim N1; now apply J|exact Lo].
  - (* load file *) rewrite <- path_named. apply (with_on w t sg m _ _ H). intros x y Em Ey M. destruct (by_uri_latest sg w t m x y (from_path p) H Em M) as [-> P]. destruct (mgr_by_uri x (from_path p)) as [a|]; cbn [option_map]; [apply (give_returns_doc sg); auto|].
    destruct found as [text|]; [exact (load_ok sg w t m false _ _ (source_new text) H)|now apply (stays sg)].
  - (* read *) apply (with_view w t sg h _ _ H). intros z Ez _. destruct (live_file sg w t _ H (handle_pointer w h z Ez)) as (f & Ef & Er & _ & _). unfold shown, seen, text_of. cbn [vw v_doc v_start v_end]. rewrite Ef, Er. now apply (stays sg).
  - (* copy *) apply (with_view w t sg h _ _ H). intros z Ez _. destruct z as [a s e]. apply (give_returns sg); [exact H|]. exact (handle_pointer w h _ Ez).
  - (* drop *) apply (with_view w t sg h _ _ H). intros z Ez _. split; [reflexivity|]. cbn [fst]. apply (fewer sg w t); auto.
    + rewrite V, map_set. symmetry. apply set_replaced. rewrite map_length. apply nth_error_Some. congruence.
    + intros a I. now apply pointers_mgr.
    + intros a I. apply pointers_handle. now apply replaced_handles in I.
Qed.
Lemma run_seen cs : forall w t, R w t -> (forall c id, In c cs -> In id (ids_of c) -> an_id id) -> run w cs = seen_by t cs.
Proof.
  induction cs as [|c cs IH]; intros w t H Ids; cbn [run seen_by]; [reflexivity|]. destruct (step_does w t c H (fun id => Ids c id (or_introl eq_refl))) as [E H']. rewrite E. f_equal. apply IH; [exact H'|]. intros c' id I. apply Ids. now right.
Qed.
Lemma R_nothing : R (mkWorld [] [] []) (mkState [] [] 0).
Proof. exists (fun _ => 0). unfold Rs. cbn. splits; [constructor|reflexivity|intros a []|intros a b []|constructor]. Qed.
