(** Model of the report about variables on a CHECK-LABEL line: filecheck/src/ast/pattern.rs
    [CheckPattern::locate_variables] and the iterator behind it, and pattern/mod.rs
    [Pattern::compile_static].  The place of a variable is represented by the variable that stands
    there. *)
From Coq Require Import String.
From Verif Require Import Base Env_Model Num_Model Gram_Model Parse_Model Smart_Model.
Open Scope list_scope.
Open Scope nat_scope.

(** ast/pattern.rs:1002-1016 *)
Inductive iter :=
| IEmpty | IPattern (c : kpat) | IRegex (cs : list capt) | IParts (l : list kpart)
| IExpr (e : pexpr) (l : list kpart) | IBuffered (b : list vname) (next : list kpart).
(** one round of the outer loop: the end, a place, or another round *)
Inductive round := Stop | Yield (v : vname) (i : iter) | Again (i : iter).

(** ast/pattern.rs:1084-1114: the list of expressions still to visit and the places found so far; a round for every
    node of the expression is enough *)
Fixpoint visit (fuel : nat) (work : list pexpr) (buffer : list vname) : list vname :=
  match fuel with
  | 0 => buffer
  | S f =>
      match work with
      | [] => buffer
      | PNum _ :: w => visit f w buffer
      | PVar v :: w => visit f w (buffer ++ [v])
      | PBin _ l r :: w => visit f (w ++ [l; r]) buffer
      end
  end.
Fixpoint nodes (e : pexpr) : nat := match e with PBin _ l r => S (nodes l + nodes r) | _ => 1 end.
(** ast/pattern.rs:1042-1083 *)
Fixpoint parts_round (l : list kpart) : round :=
  match l with
  | [] => Stop
  | q :: r =>
      match q with
      | KLit _ => Stop
      | KRegex _ [] => Stop
      | KRegex _ (c :: cs) => Yield (k_name c) (IBuffered (map k_name cs) r)
      | KMatch (MSubst n _) => Yield n (IParts r)
      | KMatch (MNumeric _ None None) => parts_round r
      | KMatch (MNumeric _ (Some n) (Some e)) => Yield n (IExpr e r)
      | KMatch (MNumeric _ None (Some e)) => Again (IExpr e r)
      | KMatch (MNumeric _ (Some n) None) => Yield n (IParts r)
      end
  end.
(** ast/pattern.rs:1021-1133 *)
Definition iter_round (i : iter) : round :=
  match i with
  | IEmpty => Stop
  | IPattern (KpEmpty | KpLit _) => Stop
  | IPattern (KpRegex _ cs) | IRegex cs => match cs with [] => Stop | c :: r => Yield (k_name c) (IRegex r) end
  | IPattern (KpParts l) => Again (IParts l)
  | IParts l => parts_round l
  | IExpr e l => match visit (S (nodes e)) [e] [] with [] => Again (IParts l) | v :: b => Yield v (IBuffered b l) end
  | IBuffered [] l => Again (IParts l)
  | IBuffered (v :: b) l => Yield v (IBuffered b l)
  end.
(** Everything the iterator yields. *)
Inductive yields : iter -> list vname -> Prop :=
| Y_stop i : iter_round i = Stop -> yields i []
| Y_yield i v i' l : iter_round i = Yield v i' -> yields i' l -> yields i (v :: l)
| Y_again i i' l : iter_round i = Again i' -> yields i' l -> yields i l.
(** ast/pattern.rs:270-272 and pattern/mod.rs:116-145: the places pointed at when a CHECK-LABEL is refused *)
Definition labels (c : cpat) (l : list vname) : Prop := yields (IPattern (compact c)) l.
