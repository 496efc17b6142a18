(** What the report about variables on a CHECK-LABEL line should point at. *)
From Coq Require Import String.
From Verif Require Import Base Env_Model Num_Model Gram_Model Parse_Model.
Open Scope list_scope.

(** The variables of an expression, and of a part of a pattern, in the order in which they are written. *)
Fixpoint of_expr (e : pexpr) : list vname :=
  match e with PNum _ => [] | PVar v => [v] | PBin _ l r => of_expr l ++ of_expr r end.
Definition mentions (q : part) : list vname :=
  match q with
  | QLit _ | QRegex _ => []
  | QMatch (MSubst n _) => [n]
  | QMatch (MNumeric _ c e) => match c with Some n => [n] | None => [] end ++ match e with Some e => of_expr e | None => [] end
  end.
(** A part whose text is known only when the values of variables are: [[X]], [[#X+1]], [[#Y: X+1]], [[#1]]. *)
Definition computed (q : part) : Prop :=
  match q with QMatch (MSubst _ None) | QMatch (MNumeric _ _ (Some _)) => True | _ => False end.
(** A part with a text of its own that mentions no variable. *)
Definition plain (q : part) : Prop := ~ computed q /\ mentions q = [].
Definition has_text (q : part) : Prop := q <> QLit [] /\ q <> QRegex [].
(** A run of plain parts, between computed parts or the ends of the pattern, right after [pre]. *)
Definition gap (pre post : list part) : Prop :=
  (pre = [] \/ exists l q, pre = l ++ [q] /\ computed q) /\
  exists run rest, post = run ++ rest /\ Forall plain run /\ (exists q, In q run /\ has_text q) /\
    (rest = [] \/ exists q l, rest = q :: l /\ computed q).
