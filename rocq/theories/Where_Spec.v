(** Where errors about groups of checks should point.  Uses only the types of the model. *)
From Verif Require Import Base Cursor_Model Env_Model Gram_Model PatSet_Model Where_Model.
Open Scope list_scope. Open Scope nat_scope.

(** The places of the patterns of a group, as they follow one another in the check file: what stands before a run of CHECK-NOT
    directives, the run, what stands behind it *)
Fixpoint stands (g : wgroup) : list place :=
  match g with
  | WNever l | WUnordered l => map pl_place l
  | WBounded l g' => map pl_place l ++ stands g'
  | WOrdered rules => rules
  | WRepeated rule => [rule]
  | WTree t => tree_stands t
  end
with tree_stands (t : wtree) : list place :=
  match t with
  | WAll g => stands g
  | WAround root l r => tree_stands l ++ map pl_place root ++ tree_stands r
  | WBefore root l => tree_stands l ++ map pl_place root
  | WAfter root r => map pl_place root ++ tree_stands r
  end.
(** All in one source, each behind the one before *)
Fixpoint in_order (src n : nat) (l : list place) : Prop :=
  match l with [] => True | p :: r => p_source p = src /\ n <= p_from p <= p_upto p /\ in_order src (p_upto p) r end.

(** Patterns whose beginnings differ.  The beginning of a pattern is its text or its regular expression, up to the first block that uses a
    variable; or that block.  (Numeric blocks are not told apart here.) *)
Definition beginning (p : prefix) : str := match p with FLit s | FSub s | FRegex s _ => s | _ => [] end.
Definition unlike (p q : prefix) : Prop :=
  match p, q with
  | FMatch (MSubst n _), FMatch (MSubst m _) => n <> m
  | FMatch (MNumeric _ _ _), FMatch (MNumeric _ _ _) => False
  | FMatch _, _ | _, FMatch _ => True
  | _, _ => beginning p <> beginning q
  end.
Definition all_unlike (l : list placed) : Prop := ForallOrdPairs (fun c d => unlike (pl_prefix c) (pl_prefix d)) l.
(** The sets of a group *)
Fixpoint sets_of (g : wgroup) : list (list placed) :=
  match g with
  | WNever l | WUnordered l => [l]
  | WBounded l g' => l :: sets_of g'
  | WOrdered _ | WRepeated _ => []
  | WTree t => tree_sets t
  end
with tree_sets (t : wtree) : list (list placed) :=
  match t with
  | WAll g => sets_of g
  | WAround root l r => root :: tree_sets l ++ tree_sets r
  | WBefore root l => root :: tree_sets l
  | WAfter root r => root :: tree_sets r
  end.
(** A prefix ends inside its pattern. *)
Definition inside (c : placed) : Prop := p_from (pl_place c) <= pl_mid c <= p_upto (pl_place c).
(** How a group is laid out in the check file *)
Definition laid_out (src : nat) (g : wgroup) : Prop := in_order src 0 (stands g) /\ Forall (Forall inside) (sets_of g).
(** From the beginning of the first to the end of the last *)
Definition spans (l : list place) (p : place) : Prop :=
  exists a r, l = a :: r /\ p = mkPlace (p_source a) (p_from a) (p_upto (last r a)).
(** Sets and sequences that occur: a set has a pattern, and no pattern of a set is empty (pattern.rs:390-393: an empty pattern has an
    empty prefix); a sequence of rules has a rule *)
Definition made (l : list placed) : Prop := l <> [] /\ Forall (fun c => exists pat p mid, c = read pat p mid /\ pl_prefix c <> FEmpty) l.
Fixpoint formed (g : wgroup) : Prop :=
  match g with
  | WNever _ | WUnordered _ | WRepeated _ => True
  | WBounded _ g' => formed g'
  | WOrdered rules => rules <> []
  | WTree t => formed_tree t
  end
with formed_tree (t : wtree) : Prop :=
  match t with
  | WAll g => formed g
  | WAround _ l r => formed_tree l /\ formed_tree r
  | WBefore _ t | WAfter _ t => formed_tree t
  end.
