(** What it means that the values of litcheck-core can be keys.  The laws of orders and equalities are those of Ord_Spec. *)
From Coq Require Import String.
From Verif Require Import Base Cursor_Model Env_Model Num_Model Gram_Model Ord_Model Key_Model.
Open Scope list_scope. Open Scope nat_scope.

(** Equal values are hashed alike. *)
Definition hashed_alike {A} (e : A -> A -> bool) (h : A -> list fed) : Prop := forall x y, e x y = true -> h x = h y.
(** The borrowed form of a value is compared and hashed as the value is (the contract of [Borrow]). *)
Definition same_order {A B} (b : A -> B) (c : A -> A -> comparison) (d : B -> B -> comparison) : Prop := forall x y, c x y = d (b x) (b y).
Definition same_equality {A B} (b : A -> B) (e : A -> A -> bool) (f : B -> B -> bool) : Prop := forall x y, e x y = f (b x) (b y).
Definition same_hash {A B} (b : A -> B) (h : A -> list fed) (g : B -> list fed) : Prop := forall x, h x = g (b x).

(** What a history of definitions and deletions, the last first, leaves a name with: the last that speaks of the name counts.  A
    deletion by text speaks of every name with this text. *)
Definition speaks_of {V} (k : vname) (o : vop V) : bool :=
  match o with
  | Define x _ | DeleteName x => vname_eqb x k
  | DeleteText s => str_eqb s (match k with Pseudo t | Global t | User t => t end)
  end.
Fixpoint left_with {V} (newest_first : list (vop V)) (k : vname) : option V :=
  match newest_first with
  | [] => None
  | o :: r => if speaks_of k o then match o with Define _ v => Some v | _ => None end else left_with r k
  end.
Definition whole_names {V} (o : vop V) : Prop := match o with DeleteText _ => False | _ => True end.
(** Only one kind of variable is used. *)
Definition kind_of (k : vname) : nat := match k with Pseudo _ => 1 | Global _ => 2 | User _ => 3 end.
Definition of_kind {V} (n : nat) (o : vop V) : Prop :=
  match o with Define k _ | DeleteName k => kind_of k = n | DeleteText _ => True end.
Definition named (n : nat) (s : str) : vname := match n with 1 => Pseudo s | 2 => Global s | _ => User s end.

(** Parts with slashes between them *)
Fixpoint joined (l : list str) : str :=
  match l with [] => [] | [p] => p | p :: r => p ++ of_string "/" ++ joined r end.
