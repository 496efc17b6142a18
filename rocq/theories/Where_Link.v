(** The sets that errors speak of (Where_Model) are those that are searched for (PatSet_Model). *)
From Coq Require Import String.
From Verif Require Import Base Text_Model Cursor_Model Lit_Model Env_Model Num_Model Gram_Model Parse_Model Regex_Model Smart_Model PatSet_Model Where_Model Where_Proofs.
Open Scope list_scope. Open Scope nat_scope.

(** Patterns of a set with their places: where a place begins is where the pattern stands. *)
Definition sited (t : spat * place * nat) : Prop := sp_at (fst (fst t)) = p_from (snd (fst t)).
Definition read_of (t : spat * place * nat) : placed := read (sp_pat (fst (fst t))) (snd (fst t)) (snd t).

Section Link.
Context (E : engine) (T : set_engine) (ci strict : bool).

(** The sets agree: the same kind of set, the prefixes at the same places in the same order, and for every prefix the suffixes at the same
    places in the same order *)
Definition same_suffixes (ss : list (list (suffix E))) (ls : list (list place)) : Prop := map (map (fun s => fst (fst s))) ss = map (map p_from) ls.
Definition same_sets (m : mset E T) (w : wset) : Prop :=
  match m, w with
  | SLit _ _ ls, Flat ps => map lit_span ls = map p_from ps
  | SRegex _ _ ats _, Flat ps => ats = map p_from ps
  | SSubPrefix _ _ ls ss, Prefixed ps l => map lit_span ls = map p_from ps /\ same_suffixes ss l
  | SRegexPrefix _ _ ats _ ss, Prefixed ps l => ats = map p_from ps /\ same_suffixes ss l
  | SAnyPrefix _ _ qs ss, Any ps l => map (fun s => fst (fst s)) qs = map p_from ps /\ same_suffixes ss l
  | _, _ => False
  end.

Lemma bind_val' {A B} (e : res A) (f : A -> res B) v : bind e f = Val v -> exists a, e = Val a /\ f a = Val v.
Proof. destruct e; cbn; [|discriminate..]. intros H. now exists a. Qed.
Lemma popped k : match snd (pop_prefix k) with KpEmpty => True | KpParts (_ :: _) => True | _ => False end.
Proof. destruct k as [|s|s cs|[|q [|p l]]]; exact I. Qed.
Lemma compiled_suffix k a l m : match k with KpEmpty => True | KpParts (_ :: _) => True | _ => False end -> compile_suffix E ci strict k = Val m ->
  is_always E (a, l, m) = match k with KpEmpty => true | _ => false end.
Proof.
  destruct k as [|s|s cs|[|q r]]; intros P H; try easy; [injection H as <-; reflexivity|]. cbn [compile_suffix compact_again] in H.
  assert (R : forall s cs m, regex_matcher E ci s cs = Val m -> is_always E (a, l, m) = false).
  { clear. intros s cs m H. unfold regex_matcher in H. apply bind_val' in H as (x & _ & H). apply bind_val' in H as (g & _ & H). injection H as <-. reflexivity. }
  destruct (fold_left compact_again_one (q :: r) ([], nothing_pending)) as [out p]. destruct out as [|x out].
  - destruct (p_lit p); cbn [compile_compact] in H; [|now apply R in H]. unfold from_literal in H. destruct (p_text p) as [|c t]; [discriminate|].
    destruct (forallb is_ws (c :: t)); [destruct (forallb is_ascii_ws (c :: t)); [injection H as <-; reflexivity|now apply R in H]|].
    apply bind_val' in H as (x & _ & H). injection H as <-. reflexivity.
  - cbn [compile_compact] in H. apply bind_val' in H as (ops & _ & H). injection H as <-. reflexivity.
Qed.

Definition rel_p (c : spat * prefix) (d : placed) : Prop := pl_prefix d = snd c /\ p_from (pl_place d) = sp_at (fst c).
Definition rel_s (s : suffix E) (t : place * bool) : Prop := fst (fst s) = p_from (fst t) /\ is_always E s = negb (snd t).
Lemma rel_push k s t ss ls x : Forall2 (Forall2 rel_s) ss ls -> rel_s s t -> push_at E k s ss = Val x -> exists y, enter k t ls = Val y /\ Forall2 (Forall2 rel_s) x y.
Proof.
  unfold push_at, enter. intros F R. revert k x. induction F as [|a b ss ls Ra F IH]; intros [|k] x H; cbn [nth_error] in *; try discriminate.
  - injection H as <-. eexists. split; [reflexivity|]. cbn. constructor; [|assumption]. apply Forall2_app; [assumption|]. constructor; [assumption|constructor].
  - destruct (nth_error ss k) as [c|] eqn:N; [|discriminate]. injection H as <-. destruct (IH k _ ltac:(rewrite N; reflexivity)) as (y & H & G).
    destruct (nth_error ls k) as [d|]; [|discriminate]. injection H as <-. eexists. split; [reflexivity|]. cbn [firstn skipn app]. now constructor.
Qed.
Lemma rel_gather l : Forall sited l -> forall id u ps ss qs ls x y, Forall2 rel_p ps qs -> Forall2 (Forall2 rel_s) ss ls ->
  group_prefixes E ci strict id (map (fun t => fst (fst t)) l) u ps ss = Val (x, y) ->
  exists v w, gather id (map read_of l) u qs ls = Val (v, w) /\ Forall2 rel_p x v /\ Forall2 (Forall2 rel_s) y w.
Proof.
  induction 1 as [|[[c p] mid] l A F IH]; intros id u ps ss qs ls x y P S H.
  - injection H as <- <-. eexists. eexists. now split; [reflexivity|].
  - cbn [map fst snd group_prefixes] in H. cbn [map gather]. change (read_of (c, p, mid)) with (read (sp_pat c) p mid). unfold read.
    pose proof (popped (compact (sp_pat c))) as R. destruct (pop_prefix (compact (sp_pat c))) as [z rest]. cbn [snd] in R. cbn [pl_prefix pl_more pl_place].
    assert (B : forall m, compile_suffix E ci strict rest = Val m -> rel_s (sp_at c, sp_line c, m) (p, match rest with KpEmpty => false | _ => true end)).
    { intros m M. split; [exact A|]. rewrite (compiled_suffix _ _ _ _ R M). now destruct rest. }
    destruct (find_prefix z u) as [k|].
    + destruct (compile_suffix E ci strict rest) as [m| |]; try discriminate. apply bind_val' in H as (s & G & H).
      destruct (rel_push k _ _ _ _ _ S (B m eq_refl) G) as (t & G' & S'). rewrite G'. cbn [bind]. now apply (IH _ _ ps s).
    + destruct (not_empty z); [|discriminate]. apply bind_val' in H as (m & M & H). apply (IH _ _ (ps ++ [(c, z)]) (ss ++ [[(sp_at c, sp_line c, m)]])); [| |exact H].
      * apply Forall2_app; [assumption|]. constructor; [|constructor]. split; [reflexivity|]. symmetry. exact A.
      * apply Forall2_app; [assumption|]. constructor; [|constructor]. constructor; [|constructor]. now apply B.
Qed.
Lemma rel_forallb (f : prefix -> bool) x v : Forall2 rel_p x v -> forallb (fun d => f (pl_prefix d)) v = forallb (fun p => f (snd p)) x.
Proof. induction 1 as [|c d x v [A _] _ IH]; [reflexivity|]. cbn. now rewrite A, IH. Qed.
Lemma rel_single y w : Forall2 (Forall2 rel_s) y w -> forallb (forallb (fun s : place * bool => negb (snd s))) w = forallb (forallb (is_always E)) y.
Proof.
  induction 1 as [|a b y w H _ IH]; [reflexivity|]. cbn [forallb]. rewrite IH. f_equal. clear - H. induction H as [|s t a b [_ A] _ IH]; [reflexivity|]. cbn [forallb]. now rewrite A, IH.
Qed.
Lemma rel_ats x v : Forall2 rel_p x v -> map p_from (map prefix_place v) = map (fun p => sp_at (fst p)) x.
Proof. induction 1 as [|c d x v [_ A] _ IH]; [reflexivity|]. cbn. rewrite IH. f_equal. now rewrite (proj1 (prefix_place_from d)). Qed.
Lemma rel_suffixes y w : Forall2 (Forall2 rel_s) y w -> same_suffixes y (map (map (@fst place bool)) w).
Proof.
  unfold same_suffixes. induction 1 as [|a b y w H _ IH]; [reflexivity|]. cbn [map]. f_equal; [|exact IH]. clear - H.
  induction H as [|s t a b [A _] _ IH]; [reflexivity|]. cbn [map]. now rewrite A, IH.
Qed.
Lemma lits_at l ls : new_lits strict l = Val ls -> map lit_span ls = map fst l.
Proof.
  revert ls. induction l as [|[n s] l IH]; intros ls H; cbn [new_lits] in H; [injection H as <-; reflexivity|]. destruct (canonical strict s) as [|c t]; [discriminate|].
  apply bind_val' in H as (r & R & H). injection H as <-. cbn. f_equal. now apply IH.
Qed.
Lemma any_ats (ps : list (spat * prefix)) : forall ms, map_res (fun p => do m <- from_prefix E ci strict (snd p); Val (sp_at (fst p), sp_line (fst p), m)) ps = Val ms ->
  map (fun s => fst (fst s)) ms = map (fun p => sp_at (fst p)) ps.
Proof.
  induction ps as [|p ps IH]; intros ms H; cbn [map_res] in H; [injection H as <-; reflexivity|]. apply bind_val' in H as (m & M & H). apply bind_val' in H as (r & R & H). injection H as <-.
  apply bind_val' in M as (k & _ & M). injection M as <-. cbn. f_equal. now apply IH.
Qed.

Lemma sets_agree l m : Forall sited l -> compile_set E T ci strict (map (fun t => fst (fst t)) l) = Val m ->
  exists w, arrange (map read_of l) = Val w /\ same_sets m w.
Proof.
  intros F H. unfold compile_set in H. apply bind_val' in H as ([x y] & G & H).
  destruct (rel_gather l F 0 [] [] [] [] [] x y ltac:(constructor) ltac:(constructor) G) as (v & w & G' & P & S). unfold arrange. rewrite G'. cbn [bind].
  rewrite (rel_forallb is_lit x v P), (rel_forallb is_sub x v P), (rel_forallb is_regex x v P), (rel_single y w S).
  pose proof (rel_ats x v P) as A. pose proof (rel_suffixes y w S) as B.
  destruct (forallb (fun p => is_lit (snd p)) x).
  - destruct (forallb (forallb (is_always E)) y); [|discriminate]. apply bind_val' in H as (ls & L & H). injection H as <-. eexists. split; [reflexivity|]. cbn.
    apply lits_at in L. rewrite L, A, map_map. reflexivity.
  - destruct (forallb (fun p => is_sub (snd p)) x).
    + destruct (forallb (forallb (is_always E)) y); [discriminate|]. apply bind_val' in H as (ls & L & H). injection H as <-. eexists. split; [reflexivity|]. cbn. split; [|exact B].
      apply lits_at in L. rewrite L, A, map_map. reflexivity.
    + destruct (forallb (fun p => is_regex (snd p)) x).
      * apply bind_val' in H as (r & _ & H). injection H as <-. eexists. split; [reflexivity|]. destruct (forallb (forallb (is_always E)) y); cbn; [now symmetry|]. split; [now symmetry|exact B].
      * apply bind_val' in H as (ms & M & H). injection H as <-. eexists. split; [reflexivity|]. cbn. split; [|exact B]. apply any_ats in M. now rewrite M, A.
Qed.
End Link.

(** Whenever a CHECK-NOT or CHECK-DAG group can be compiled, errors can say where it is, and the sets agree: prefixes and suffixes are the
    same, in the same order. *)
Theorem C103_same_sets E T ci strict l m : Forall sited l -> compile_set E T ci strict (map (fun t => fst (fst t)) l) = Val m ->
  exists w, arrange (map read_of l) = Val w /\ same_sets E T m w.
Proof. exact (sets_agree E T ci strict l m). Qed.
Print Assumptions C103_same_sets.
Example same_sets_case E T :
  let use n := PParts [QLit (of_string "a="); QMatch (MSubst (User (of_string n)) None)] in
  let l := [(mkPat 11 1 (use "X"), mkPlace 1 11 18, 13); (mkPat 30 2 (PLit (of_string "b")), mkPlace 1 30 31, 31)] in
  Forall sited l /\ exists m w, compile_set E T false false (map (fun t => fst (fst t)) l) = Val m /\ arrange (map read_of l) = Val w /\
    w = Prefixed [mkPlace 1 11 13; mkPlace 1 30 31] [[mkPlace 1 11 18]; [mkPlace 1 30 31]] /\ same_sets E T m w.
Proof.
  cbv zeta. split; [repeat constructor|]. eexists. eexists. split; [vm_compute; reflexivity|]. split; [vm_compute; reflexivity|]. split; [reflexivity|]. split; reflexivity.
Qed.
