(** What a set of patterns means, for CHECK-NOT and CHECK-DAG. *)
From Coq Require Import String Sorted Permutation.
From Verif Require Import Base Text_Model Cursor_Model Check_Model Lit_Model Lit_Spec Env_Model Num_Model Gram_Model Parse_Model
  Regex_Model Regex_Spec Smart_Model Smart_Spec Smart_Static PatSet_Model.
Open Scope list_scope.
Open Scope nat_scope.

(** What the matchers rely on, for every set of regular expressions that the automata accept and Regex_Model
    describes: the search reports the matches of the patterns in the range, no others, by their ends; the
    groups of a match are those of some way to match a text that begins where the match does and does not go
    beyond it. *)
Definition by_end (p q : nat * range) : Prop := rend (snd p) <= rend (snd q).
Record set_ok (T : set_engine) : Prop := {
  so_names ci l xs x k y : build_all ci l = Some xs -> rs_build T ci l = Some x -> nth_error xs k = Some y ->
    rs_names T x k = x_names y;
  so_matches ci l xs x b s e k i j : build_all ci l = Some xs -> rs_build T ci l = Some x -> s <= e -> e <= length b ->
    In (k, mkRange i j) (rs_matches T x b (mkRange s e)) <-> exists y, nth_error xs k = Some y /\ s <= i <= e /\ lang ci b e (x_re y) i j;
  so_order ci l xs x b r : build_all ci l = Some xs -> rs_build T ci l = Some x -> StronglySorted by_end (rs_matches T x b r);
  so_groups ci l xs x b r k i j y : build_all ci l = Some xs -> rs_build T ci l = Some x -> nth_error xs k = Some y ->
    rend r <= length b -> In (k, mkRange i j) (rs_matches T x b r) ->
    exists j' g, j' <= j /\ run ci b j (x_re y) i no_caps j' g /\
      rs_groups T x b k (mkRange i j) = Some (Some (mkRange i j') :: map g (seq 1 (length (x_names y) - 1))) }.

(** The parts of a pattern *)
Definition parts_of (c : cpat) : list part :=
  match c with PEmpty => [] | PLit s => [QLit s] | PRegex s => [QRegex s] | PParts l => l end.
Definition only_text (c : cpat) : bool := forallb is_literal (parts_of c).
(** A pattern that does not depend on variables and can be compiled.  As a part of a pattern a regular
    expression must not be an alternation (alternation_refuted); on its own it may. *)
Definition fixed (ci : bool) (c : cpat) : Prop :=
  match c with
  | PEmpty => False
  | PLit s => s <> []
  | PRegex s => exists x, build ci s = Some x
  | PParts l => l <> [] /\ Forall (static ci) l /\ NoDup (flat_map part_names l) /\ (forallb is_literal l = true -> flat_map part_text l <> [])
  end.
(** The text that is compared to tell patterns apart: that of a literal as it stands, otherwise that of the
    regular expression; and whether variables are defined. *)
Definition literal_of (q : part) : str := match q with QLit s => s | _ => [] end.
Definition written (c : cpat) : str * bool :=
  if only_text c then (flat_map literal_of (parts_of c), false)
  else (flat_map part_text (parts_of c), match flat_map part_caps (parts_of c) with [] => false | _ => true end).

(** The text from [i] to [j] is one for the pattern; [cs]: the variables it defines, with their texts. *)
Definition matches_at (ci : bool) (b : bytes) (e : nat) (c : cpat) (i j : nat) (cs : list (capt * str)) : Prop :=
  i <= e /\ pieces ci b e (parts_of c) i j cs.
(** What CHECK-NOT finds in the range from [s] to [e]: a match of one of the patterns, whose variables are
    defined; or nothing, if no pattern matches anywhere; or an error, if the text of a numeric variable is not
    a number that can be represented. *)
Inductive not_outcome (ci : bool) (b : bytes) (l : list spat) (s e : nat) (env0 : @bindings value) : mresult * @bindings value -> Prop :=
| no_none : (forall c i j cs, In c l -> s <= i -> ~ matches_at ci b e (sp_pat c) i j cs) -> not_outcome ci b l s e env0 (failed ENone, env0)
| no_found k c i j cs vs : nth_error l k = Some c -> s <= i -> matches_at ci b e (sp_pat c) i j cs -> values_for cs vs ->
    not_outcome ci b l s e env0 (mkRes Good (Some (mkInfo (mkRange i j) k (sp_at c))), defined env0 vs)
| no_bad k c i j cs : nth_error l k = Some c -> s <= i -> matches_at ci b e (sp_pat c) i j cs -> ~ (exists vs, values_for cs vs) ->
    not_outcome ci b l s e env0 (failed (EMatch true), env0).

(** No pattern has a match that ends before [j]. *)
Definition ends_first (ci : bool) (b : bytes) (l : list spat) (s e j : nat) : Prop :=
  forall c i' j' cs, In c l -> s <= i' -> matches_at ci b e (sp_pat c) i' j' cs -> j <= j'.

(** What a successful CHECK-DAG has found: one match for every pattern, with the variables it defines.  Neither
    end of a match lies inside one that was found before it. *)
Definition dag_one (ci : bool) (b : bytes) (l : list spat) (s e : nat) (a : minfo * list (vname * value)) : Prop :=
  exists k c i j cs, nth_error l k = Some c /\ s <= i /\ matches_at ci b e (sp_pat c) i j cs /\ values_for cs (snd a) /\
    fst a = mkInfo (mkRange i j) k (sp_at c).
Definition apart (a c : minfo * list (vname * value)) : Prop :=
  let r := i_span (fst a) in let t := i_span (fst c) in
  ~ (rstart r <= rstart t < rend r) /\ ~ (rstart r <= rend t < rend r).
Definition dag_found (ci : bool) (b : bytes) (l : list spat) (s e : nat) (env0 : @bindings value) (ms : matches) (env1 : @bindings value) : Prop :=
  exists found, Permutation (map (fun a => mkRes Good (Some (fst a))) found) ms /\
    Permutation (map (fun a => i_id (fst a)) found) (seq 0 (length l)) /\
    Forall (dag_one ci b l s e) found /\ ForallOrdPairs apart found /\ env1 = defined env0 (flat_map snd found).
(** The matches of different patterns never touch one another, and none is empty. *)
Definition no_clash (ci : bool) (b : bytes) (l : list spat) (s e : nat) : Prop :=
  (forall c i j cs, In c l -> s <= i -> matches_at ci b e (sp_pat c) i j cs -> i < j) /\
  forall k c i j cs k' c' i' j' cs', k <> k' -> nth_error l k = Some c -> nth_error l k' = Some c' -> s <= i -> s <= i' ->
    matches_at ci b e (sp_pat c) i j cs -> matches_at ci b e (sp_pat c') i' j' cs' -> j <= i' \/ j' <= i.
(** No pattern defines a numeric variable. *)
Definition no_numbers (l : list spat) : Prop := forall c x, In c l -> In x (flat_map part_caps (parts_of (sp_pat c))) -> k_ty x = TyStr.
