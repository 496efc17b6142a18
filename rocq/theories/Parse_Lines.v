(** A check file is read line by line. *)
From Coq Require Import String.
From Verif Require Import Base Gram_Model Script_Model Parse_Model Parse_Spec Parse_Proofs.
From Verif Require BoolExpr_Model BoolExpr_Proofs Script_Proofs.
Open Scope string_scope.
Open Scope list_scope.
Notation length := List.length.
Ltac splits := repeat match goal with |- _ /\ _ => split end.
Notation LF := (10%N).

(** ** The search, position by position *)
Definition bol (prev : option N) : bool := match prev with None => true | Some c => N.eqb c LF end.
Fixpoint scan (cfg : config) (s : str) : option (found * str) :=
  match s with
  | [] => None
  | c :: r => if is_ws c then match at_all cfg r with Some x => Some x | None => scan cfg r end else scan cfg r
  end.
Definition lsearch (cfg : config) (l : str) : option (found * str) :=
  match at_all cfg l with Some x => Some x | None => scan cfg l end.

Section Config.
Context (cfg : config) (G : good_config cfg) (U : unambiguous cfg).

Lemma heads_first s f r : heads cfg s f r -> exists c q, s = c :: q /\ prefix_char c.
Proof.
  intros H. apply heads_inv in H as [(p & t & I & _ & _ & _ & ->)|(p & sh & b & w & m & K & _ & _ & ->)].
  - destruct G as (_ & _ & _ & F). rewrite Forall_forall in F. destruct (F _ I) as [N P]. destruct P as [|c q P _]; [easy|]. cbn. eauto.
  - destruct (keyword_plain cfg _ _ G K) as [N P]. destruct P as [|c q P _]; [easy|]. cbn. eauto.
Qed.
Lemma at_ws c r : is_ws c = true -> at_all cfg (c :: r) = None.
Proof.
  intros W. apply at_none; auto. intros f u H. apply heads_first in H as (c' & q & [= <- <-] & (P & _)). apply P. now apply ws_b.
Qed.
Lemma at_nil : at_all cfg [] = None.
Proof. apply at_none; auto. intros f u H. now apply heads_first in H as (c' & q & H & _). Qed.
Lemma at_parts s : at_all cfg s = None -> comment_at cfg s = None /\ forall sfx, In sfx suffixes -> suffix_at cfg sfx s = None.
Proof.
  unfold at_all. destruct (comment_at cfg s); [discriminate|]. intros H. split; [easy|]. now apply first_some_none.
Qed.
Lemma first_some_ext {A B} (f g : A -> option B) l : (forall x, In x l -> f x = g x) -> first_some f l = first_some g l.
Proof.
  induction l as [|x l IH]; intros H; [reflexivity|]. cbn. rewrite (H x (or_introl eq_refl)). rewrite IH; auto.
  intros y I. apply H. now right.
Qed.
Lemma match_at_eq prev s : match_at cfg prev s =
  match s with
  | [] => None
  | c :: r => if is_ws c then at_all cfg r else if bol prev then at_all cfg s else None
  end.
Proof.
  unfold match_at. destruct s as [|c r].
  - destruct (at_parts [] at_nil) as [E1 E2]. unfold boundary. rewrite E1.
    replace (if match prev with None => true | Some c => N.eqb c LF end then None else None) with (@None (found * str)) by (now destruct (match prev with None => true | Some c => N.eqb c LF end)).
    apply first_some_none. intros sfx I. rewrite (E2 _ I). now destruct (match prev with None => true | Some c => N.eqb c LF end).
  - destruct (is_ws c) eqn:W.
    + destruct (at_parts (c :: r) (at_ws c r W)) as [E1 E2]. unfold boundary, at_all. rewrite E1, W.
      replace (if match prev with None => true | Some c => N.eqb c LF end then None else None) with (@None (found * str)) by (now destruct (match prev with None => true | Some c => N.eqb c LF end)).
      destruct (comment_at cfg r); [reflexivity|]. apply first_some_ext. intros sfx I. rewrite (E2 _ I).
      now destruct (match prev with None => true | Some c => N.eqb c LF end).
    + unfold boundary, at_all, bol. rewrite W. destruct (match prev with None => true | Some c => N.eqb c LF end).
      * destruct (comment_at cfg (c :: r)); [reflexivity|]. apply first_some_ext. intros sfx I. now destruct (suffix_at cfg sfx (c :: r)).
      * apply first_some_none. reflexivity.
Qed.
Lemma search_eq s : forall prev, search cfg prev s = match (if bol prev then at_all cfg s else None) with Some x => Some x | None => scan cfg s end.
Proof.
  induction s as [|c r IH]; intros prev; cbn [search scan]; rewrite match_at_eq.
  - rewrite at_nil. now destruct (bol prev).
  - destruct (is_ws c) eqn:W.
    + rewrite (at_ws c r W). replace (if bol prev then None else None) with (@None (found * str)) by now destruct (bol prev).
      rewrite IH. destruct (at_all cfg r); [reflexivity|]. now destruct (bol (Some c)).
    + destruct (if bol prev then at_all cfg (c :: r) else None); [reflexivity|]. rewrite IH.
      replace (bol (Some c)) with false; [reflexivity|]. cbn. symmetry. apply N.eqb_neq. intros ->. discriminate.
Qed.

(** ** A line is independent of what follows *)
Lemma more_no_close m : more_modifiers m -> ~ In 125%N m.
Proof.
  assert (B : forall a, blank a -> ~ In 125%N a).
  { intros a B I. unfold blank in B. rewrite Forall_forall in B. apply B in I. apply ws_b in I. discriminate. }
  induction 1 as [|a b c m A Bb C M IH]; [easy|]. rewrite !in_app_iff. cbn. pose proof (B a A). pose proof (B b Bb). pose proof (B c C).
  intros H'. repeat destruct H' as [H'|H']; try easy; auto.
Qed.
Lemma keyword_no_lf f w : keyword cfg f w -> ~ In LF w.
Proof.
  intros K I. apply keyword_plain in K as [_ F]; auto. rewrite Forall_forall in F. apply F in I as (W & _). apply W. apply ws_b. reflexivity.
Qed.
Lemma first_lf s : In LF s -> exists a b, s = a ++ LF :: b /\ ~ In LF a.
Proof.
  induction s as [|c s IH]; [easy|]. intros I. destruct (N.eq_dec c LF) as [->|N]; [exists [], s; auto|].
  destruct I as [I|I]; [congruence|]. destruct (IH I) as (a & b & -> & F). exists (c :: a), b. split; [easy|]. intros [X|X]; auto.
Qed.
Lemma cut_lf (a l : str) r u : ~ In LF a -> eol u -> a ++ r = l ++ u -> ~ In LF l -> exists r', l = a ++ r' /\ r = r' ++ u.
Proof.
  intros A O E L. revert l E L. induction a as [|c a IH]; intros l E L.
  - exists l. auto.
  - destruct l as [|d l].
    + destruct O as [->|(x & ->)]; [discriminate|]. injection E as -> _. exfalso. apply A. now left.
    + injection E as -> E. destruct (IH (fun X => A (or_intror X)) l E (fun X => L (or_intror X))) as (r' & -> & ->). exists r'. auto.
Qed.
Lemma heads_extend l u f r : ~ In LF l -> eol u -> heads cfg l f r -> heads cfg (l ++ u) f (r ++ u).
Proof.
  intros L O H. apply heads_inv in H as [(p & t & I & N & O' & -> & ->)|(p & sh & b & w & m & K & M & -> & ->)].
  - assert (r = []) as -> by (destruct O' as [->|(x & ->)]; [easy|]; exfalso; apply L; rewrite !in_app_iff; cbn; auto).
    rewrite app_nil_r in *. rewrite <- !app_assoc. now constructor.
  - rewrite <- !app_assoc. now constructor.
Qed.
Lemma heads_cut l u f r : ~ In LF l -> eol u -> closed cfg l -> heads cfg (l ++ u) f r -> exists r', heads cfg l f r' /\ r = r' ++ u.
Proof.
  intros L O C H. apply heads_inv in H as [(p & t & I & N & O' & -> & E)|(p & sh & b & w & m & K & M & -> & E)].
  - assert (P : ~ In LF (p ++ of_string ":" ++ t)).
    { destruct G as (_ & _ & _ & F). rewrite Forall_forall in F. destruct (F _ I) as [_ P]. rewrite !in_app_iff. intros [X|[X|X]].
      - rewrite Forall_forall in P. apply P in X as (W & _). apply W. now apply ws_b.
      - cbn in X. now destruct X.
      - auto. }
    assert (E' : (p ++ of_string ":" ++ t) ++ r = l ++ u) by now rewrite E, <- !app_assoc.
    apply (cut_lf _ l) in E' as (r' & -> & ->); auto.
    assert (r' = []) as ->.
    { destruct r' as [|c r']; [easy|]. destruct O' as [X|(x & X)]; [discriminate|]. injection X as -> _. exfalso. apply L. rewrite !in_app_iff. cbn. auto. }
    exists []. split; [|easy]. replace ((p ++ of_string ":" ++ t) ++ []) with (p ++ of_string ":" ++ t ++ []) by now rewrite <- !app_assoc.
    constructor; auto. now left.
  - assert (P : ~ In LF (w ++ m ++ of_string ":")).
    { rewrite !in_app_iff. intros [X|[X|X]]; [now apply (keyword_no_lf _ _ K)| |cbn in X; now destruct X].
      destruct M as [|a m' A M]; [easy|]. pose proof (more_no_close _ M) as NC.
      assert (NA : ~ In 125%N a). { intros Y. unfold blank in A. rewrite Forall_forall in A. apply A in Y. apply ws_b in Y. discriminate. }
      rewrite !in_app_iff in X. destruct X as [X|X]; [cbn in X; now destruct X|].
      assert (X' : In LF (a ++ of_string "LITERAL" ++ m')).
      { rewrite !in_app_iff. destruct X as [X|[X|[X|X]]]; auto. cbn in X. now destruct X. }
      apply first_lf in X' as (x1 & x2 & E2 & F1).
      assert (NX : ~ In 125%N (a ++ of_string "LITERAL" ++ m')).
      { rewrite !in_app_iff. intros [Y|[Y|Y]]; auto. cbn in Y. repeat destruct Y as [Y|Y]; easy. }
      rewrite E2 in NX.
      assert (Q : (w ++ of_string "{" ++ x1) ++ LF :: (x2 ++ of_string "}" ++ of_string ":" ++ r) = l ++ u).
      { rewrite E. clear - E2. transitivity (w ++ of_string "{" ++ (a ++ of_string "LITERAL" ++ m') ++ of_string "}" ++ of_string ":" ++ r).
        - rewrite E2. now repeat (rewrite <- app_assoc; cbn [app]).
        - now repeat (rewrite <- app_assoc; cbn [app]). }
      assert (Q1 : ~ In LF (w ++ of_string "{" ++ x1)).
      { rewrite !in_app_iff. intros [Y|[Y|Y]]; [now apply (keyword_no_lf _ _ K)|cbn in Y; now destruct Y|auto]. }
      apply (cut_lf _ l) in Q as (r' & -> & Q2); auto.
      assert (r' = []) as ->.
      { destruct r' as [|c r']; [easy|]. injection Q2 as <- _. exfalso. apply L. rewrite in_app_iff. right. now left. }
      rewrite app_nil_r in C. specialize (C [] _ _ eq_refl w x1 eq_refl K). apply NX. apply in_or_app. now left. }
    assert (E' : (w ++ m ++ of_string ":") ++ r = l ++ u) by now rewrite E, <- !app_assoc.
    apply (cut_lf _ l) in E' as (r' & -> & ->); auto.
    exists r'. split; [|easy]. replace ((w ++ m ++ of_string ":") ++ r') with (w ++ m ++ of_string ":" ++ r') by now rewrite <- !app_assoc.
    now constructor.
Qed.
Definition plus (u : str) (o : option (found * str)) : option (found * str) := option_map (fun x => (fst x, snd x ++ u)) o.
Lemma at_app l u : ~ In LF l -> eol u -> closed cfg l -> at_all cfg (l ++ u) = plus u (at_all cfg l).
Proof.
  intros L O C. destruct (at_all cfg l) as [[f r]|] eqn:E.
  - apply at_spec in E; auto. cbn. apply at_spec; auto. now apply heads_extend.
  - cbn. apply at_none; auto. intros f r H. apply heads_cut in H as (r' & H & _); auto. rewrite at_none in E by easy. now apply E in H.
Qed.
Lemma closed_tl c l : closed cfg (c :: l) -> closed cfg l.
Proof. intros C a t f -> w u E K. exact (C (c :: a) t f eq_refl w u E K). Qed.
Lemma scan_app l u : ~ In LF l -> eol u -> closed cfg l -> scan cfg (l ++ u) = match scan cfg l with Some x => plus u (Some x) | None => scan cfg u end.
Proof.
  intros L O. induction l as [|c l IH]; intros C; [reflexivity|]. cbn [app scan].
  assert (L' : ~ In LF l) by (intros X; apply L; now right). apply closed_tl in C.
  rewrite (at_app l u) by easy. rewrite IH by easy. destruct (is_ws c); [|reflexivity]. now destruct (at_all cfg l).
Qed.
Lemma search_line prev l u : bol prev = true -> ~ In LF l -> eol u -> closed cfg l ->
  search cfg prev (l ++ u) = match lsearch cfg l with Some x => plus u (Some x) | None => scan cfg u end.
Proof.
  intros B L O C. rewrite search_eq, B, at_app, scan_app by easy. unfold lsearch. now destruct (at_all cfg l).
Qed.
Lemma scan_lf s : scan cfg (LF :: s) = search cfg (Some LF) s.
Proof. rewrite search_eq. reflexivity. Qed.

(** ** Lines *)
Definition tail (ls : list str) : str := match ls with [] => [] | _ => LF :: file ls end.
Lemma tail_eol ls : eol (tail ls).
Proof. destruct ls; [now left|]. right. eexists. reflexivity. Qed.
Lemma file_cons l ls : file (l :: ls) = l ++ tail ls.
Proof. destruct ls; cbn; [now rewrite app_nil_r|reflexivity]. Qed.
Definition good_line (l : str) : Prop := ~ In LF l /\ closed cfg l.
Fixpoint next (ls : list str) : option (found * str * list str) :=
  match ls with
  | [] => None
  | l :: r => match lsearch cfg l with Some (f, t) => Some (f, t, r) | None => next r end
  end.
Lemma search_file ls prev : Forall good_line ls -> bol prev = true ->
  search cfg prev (file ls) = option_map (fun x => let '(f, t, r) := x in (f, t ++ tail r)) (next ls).
Proof.
  intros F. revert prev. induction F as [|l ls [L C] _ IH]; intros prev B.
  - change (file []) with (@nil N). rewrite search_eq, at_nil. now destruct (bol prev).
  - rewrite file_cons, search_line by (auto using tail_eol). cbn [next]. destruct (lsearch cfg l) as [[f t]|]; [reflexivity|].
    destruct ls as [|l' ls]; [reflexivity|]. cbn [tail]. rewrite scan_lf. now apply IH.
Qed.

(** ** Indentation *)
Lemma ascii_ws c : is_ascii_ws c = true -> is_ws c = true.
Proof. unfold is_ascii_ws, BoolExpr_Model.is_whitespace. lia. Qed.
Lemma skip_split s : exists w, s = w ++ skip_ascii s /\ Forall (fun c => is_ascii_ws c = true) w.
Proof.
  induction s as [|c s (w & E & F)]; [exists []; auto|]. cbn. destruct (is_ascii_ws c) eqn:W.
  - exists (c :: w). split; [cbn; congruence|auto].
  - exists []. auto.
Qed.
Lemma scan_blank w x s : Forall (fun c => is_ascii_ws c = true) (w ++ [x]) ->
  scan cfg (w ++ x :: s) = match at_all cfg s with Some y => Some y | None => scan cfg s end.
Proof.
  induction w as [|c w IH]; cbn [app scan]; intros F; inversion F as [|? ? W F']; subst; rewrite (ascii_ws _ W).
  - reflexivity.
  - rewrite IH by easy.
    assert (E : at_all cfg (w ++ x :: s) = None).
    { destruct w as [|d w]; cbn; apply at_ws, ascii_ws; cbn in F'; now inversion F'. }
    now rewrite E.
Qed.
Lemma indent_line ls : forall w x s, Forall good_line ls -> file ls = w ++ x :: s ->
  Forall (fun c => is_ascii_ws c = true) (w ++ [x]) -> x <> LF ->
  exists l i t u, In l ls /\ l = i ++ t /\ i <> [] /\ s = t ++ u /\ eol u /\ Forall indent_char i.
Proof.
  induction ls as [|l ls IH]; intros w x s F E W X; [now destruct w|].
  inversion F as [|? ? [L C] F']; subst. rewrite file_cons in E.
  destruct (le_lt_dec (S (length w)) (length l)) as [Le|Lt].
  - assert (T : exists t, l = w ++ x :: t /\ s = t ++ tail ls).
    { clear - E Le. revert l E Le. induction w as [|c w IH]; intros [|d l] E Le; cbn in *; try lia.
      - injection E as -> <-. eauto.
      - injection E as -> E. destruct (IH l E) as (t & -> & ->); [lia|]. eauto. }
    destruct T as (t & -> & ->). exists (w ++ x :: t), (w ++ [x]), t, (tail ls). splits; auto using tail_eol.
    + now left.
    + now rewrite <- app_assoc.
    + now destruct w.
    + rewrite Forall_forall in *. intros c I. specialize (W c I). unfold is_ascii_ws in W. unfold indent_char.
      assert (c <> LF).
      { intros ->. apply L. rewrite in_app_iff in *. destruct I as [I|[I|[]]]; [auto|]. congruence. }
      lia.
  - assert (T : exists w', w = l ++ w' /\ tail ls = w' ++ x :: s).
    { clear - E Lt. revert l E Lt. induction w as [|c w IH]; intros [|d l] E Lt; cbn in *; try lia; eauto.
      injection E as -> E. destruct (IH l E) as (w' & -> & T); [lia|]. eauto. }
    destruct T as (w' & -> & T). destruct ls as [|l' ls]; [now destruct w'|]. cbn [tail] in T.
    destruct w' as [|c w']; [injection T as <- _; congruence|]. injection T as <- T.
    destruct (IH w' x s F' T) as (k & i & t & u & I & R); auto.
    { rewrite <- app_assoc in W. apply Forall_app in W as [_ W]. now inversion W. }
    exists k, i, t, u. split; [now right|exact R].
Qed.
(** what the lexer does: skip, then search *)
Definition after_skip (prev : option N) (s : str) : option N :=
  if Nat.eqb (length (skip_ascii s)) (length s) then prev else nth_error s (length s - length (skip_ascii s) - 1).
Lemma skip_search ls prev : Forall good_line ls -> Forall (not_indented cfg) ls -> bol prev = true ->
  search cfg (after_skip prev (file ls)) (skip_ascii (file ls)) = search cfg prev (file ls).
Proof.
  intros F I B. destruct (skip_split (file ls)) as (w & E & W). unfold after_skip.
  remember (skip_ascii (file ls)) as s2 eqn:Hs2. clear Hs2.
  destruct w as [|c0 w0] eqn:Ew.
  - cbn in E. rewrite <- E, Nat.eqb_refl. reflexivity.
  - destruct (exists_last (l := w)) as (v & x & Ev); [now subst|]. rewrite Ev in Ew. rewrite <- Ew in *. clear Ew Ev c0 w0 w.
    rewrite <- app_assoc in E. cbn [app] in E.
    assert (Ln : length (file ls) = length v + S (length s2)) by (rewrite E, app_length; reflexivity).
    rewrite (proj2 (Nat.eqb_neq (length s2) (length (file ls)))) by lia.
    replace (nth_error (file ls) (length (file ls) - length s2 - 1)) with (Some x).
    2:{ rewrite Ln. replace (length v + S (length s2) - length s2 - 1) with (length v) by lia.
        rewrite E, nth_error_app2, Nat.sub_diag by lia. reflexivity. }
    assert (S1 : search cfg prev (file ls) = match at_all cfg s2 with Some y => Some y | None => scan cfg s2 end).
    { rewrite search_eq, B. rewrite E. rewrite (scan_blank v x s2 W).
      assert (N : at_all cfg (v ++ x :: s2) = None).
      { destruct v as [|d v]; cbn; apply at_ws, ascii_ws; cbn in W; now inversion W. }
      now rewrite N. }
    rewrite S1, search_eq. cbn [bol]. destruct (N.eqb_spec x LF) as [->|X]; [reflexivity|].
    replace (at_all cfg s2) with (@None (found * str)); [reflexivity|]. symmetry. apply at_none; auto. intros f r H.
    destruct (indent_line ls v x s2 F E W X) as (l & i & t & u & Il & -> & Ni & Es & O & Fi).
    rewrite Es in H. rewrite Forall_forall in F, I.
    destruct (F _ Il) as [L C].
    assert (L' : ~ In LF t) by (intros Y; apply L; rewrite in_app_iff; auto).
    assert (C' : closed cfg t). { intros a t' g -> p q Eq K. refine (C (i ++ a) t' g _ p q Eq K). now rewrite <- app_assoc. }
    apply heads_cut in H as (r' & H & _); auto. exact (I _ Il i t f r' eq_refl Ni Fi H).
Qed.

(** ** What a line says *)
Lemma scan_says s : match scan cfg s with
  | Some (f, r) => exists a c t, s = a ++ c :: t /\ ws c /\ heads cfg t f r /\
      forall a' c' t' f' r', s = a' ++ c' :: t' -> ws c' -> heads cfg t' f' r' -> (length a <= length a')%nat
  | None => forall a c t f r, s = a ++ c :: t -> ws c -> ~ heads cfg t f r
  end.
Proof.
  induction s as [|c s IH]; cbn [scan].
  - intros a c t f r E. now destruct a.
  - assert (D : match scan cfg s with Some (f, r) => exists a c0 t, c :: s = (c :: a) ++ c0 :: t /\ ws c0 /\ heads cfg t f r /\
      (forall a' c' t' f' r', s = a' ++ c' :: t' -> ws c' -> heads cfg t' f' r' -> (length a <= length a')%nat)
      | None => forall a c0 t f r, s = a ++ c0 :: t -> ws c0 -> ~ heads cfg t f r end).
    { destruct (scan cfg s) as [[f r]|]; [|exact IH]. destruct IH as (a & c0 & t & -> & W & H & M). exists a, c0, t. now splits. }
    destruct (is_ws c) eqn:W.
    + destruct (at_all cfg s) as [[f r]|] eqn:A.
      * exists [], c, s. splits; auto; [now apply ws_b|now apply at_spec in A|cbn; lia].
      * rewrite at_none in A by easy. destruct (scan cfg s) as [[f r]|].
        -- destruct D as (a & c0 & t & E & W0 & H & M). exists (c :: a), c0, t. splits; auto.
           intros a' c' t' f' r' E' W' H'. destruct a' as [|d a']; [injection E' as <- <-; now apply A in H'|].
           injection E' as <- E'. cbn. apply le_n_S. eapply M; eauto.
        -- intros a c0 t f r E W0 H. destruct a as [|d a]; [injection E as <- <-; now apply A in H|]. injection E as <- E. now apply (D _ _ _ _ _ E W0 H).
    + assert (W' : ~ ws c) by (intros X; apply ws_b in X; congruence).
      destruct (scan cfg s) as [[f r]|].
      * destruct D as (a & c0 & t & E & W0 & H & M). exists (c :: a), c0, t. splits; auto.
        intros a' c' t' f' r' E' W1 H'. destruct a' as [|d a']; [injection E' as <- <-; easy|].
        injection E' as <- E'. cbn. apply le_n_S. eapply M; eauto.
      * intros a c0 t f r E W0 H. destruct a as [|d a]; [injection E as <- <-; easy|]. injection E as <- E. now apply (D _ _ _ _ _ E W0 H).
Qed.
Lemma lsearch_says l : says cfg l (lsearch cfg l).
Proof.
  unfold lsearch. destruct (at_all cfg l) as [[f r]|] eqn:A.
  - apply at_spec in A; auto. apply (says_some cfg l [] l); auto; [now left|cbn; lia].
  - rewrite at_none in A by easy. pose proof (scan_says l) as H. destruct (scan cfg l) as [[f r]|].
    + destruct H as (a & c & t & -> & W & H & M). apply (says_some cfg _ (a ++ [c]) t); auto.
      * now rewrite <- app_assoc.
      * right. eauto.
      * intros a' t' f' r' E [->|(b & d & -> & Wd)] H'; [cbn in E; subst t'; now apply A in H'|].
        rewrite <- app_assoc in E. cbn in E. rewrite !app_length. cbn. apply Nat.add_le_mono_r. eapply M; eauto.
    + constructor. intros a t f r E [->|(b & d & -> & Wd)] H'; [cbn in E; subst t; now apply A in H'|].
      rewrite <- app_assoc in E. now apply (H _ _ _ _ _ E Wd H').
Qed.
Lemma says_unique l o o' : says cfg l o -> says cfg l o' -> o = o'.
Proof.
  intros H H'. destruct H as [a t f r E W H M|N]; destruct H' as [a' t' f' r' E' W' H' M'|N'].
  - assert (length a = length a') by (apply Nat.le_antisymm; [eapply M|eapply M']; eauto).
    rewrite E in E'. apply app_eq_app in E' as (x & [[-> ->]|[-> ->]]); rewrite app_length in *; (destruct x; [|cbn in *; lia]); cbn in *; rewrite ?app_nil_l in *.
    + destruct (heads_unique cfg _ _ _ _ _ G U H H') as [-> ->]. reflexivity.
    + destruct (heads_unique cfg _ _ _ _ _ G U H H') as [-> ->]. reflexivity.
  - exfalso. eapply N'; eauto.
  - exfalso. eapply N; eauto.
  - reflexivity.
Qed.
Lemma says_spec l o : says cfg l o <-> lsearch cfg l = o.
Proof.
  split; [intros H; exact (says_unique l _ _ (lsearch_says l) H)|intros <-; apply lsearch_says].
Qed.
End Config.
