(** What it means that values are compared lawfully (the contract of Rust's [Ord]), without reference to the
    way in which they are compared. *)
From Coq Require Import String.
From Verif Require Import Base Gram_Model PatSet_Model Ord_Model.
Open Scope list_scope.
Open Scope nat_scope.

(** On the values with [P]: swapping the sides swaps the answer, and "not greater" is transitive.  (Each value
    then equals itself, and any two can be compared, so this is a total order on classes of equals.) *)
Record lawful_on {A} (P : A -> Prop) (c : A -> A -> comparison) : Prop := {
  swapped : forall x y, P x -> P y -> c y x = CompOpp (c x y);
  chained : forall x y z, P x -> P y -> P z -> c x y <> Gt -> c y z <> Gt -> c x z <> Gt }.
Definition lawful {A} (c : A -> A -> comparison) : Prop := lawful_on (fun _ => True) c.
(** [==] is an equivalence. *)
Record equivalence {A} (e : A -> A -> bool) : Prop := {
  reflexive : forall x, e x x = true;
  symmetric : forall x y, e x y = true -> e y x = true;
  transitive : forall x y z, e x y = true -> e y z = true -> e x z = true }.
(** [==] holds of exactly the values that the order takes for equal. *)
Definition consistent {A} (c : A -> A -> comparison) (e : A -> A -> bool) : Prop :=
  forall x y, c x y = Eq <-> e x y = true.

(** Expressions that are the same but for the formats of their numbers *)
Inductive same_expr : expr -> expr -> Prop :=
| se_num n m : Num_Model.nvalue n = Num_Model.nvalue m -> same_expr (XNum n) (XNum m)
| se_var v : same_expr (XVar v) (XVar v)
| se_bin o l r l' r' : same_expr l l' -> same_expr r r' -> same_expr (XBin o l r) (XBin o l' r').
Inductive same_option {A} (same : A -> A -> Prop) : option A -> option A -> Prop :=
| so_none : same_option same None None
| so_some x y : same x y -> same_option same (Some x) (Some y).
(** Matches that are the same but for the formats of their numbers, and for formats whose digits are found by the same regular
    expression ([digits_text]) *)
Inductive same_match : amatch -> amatch -> Prop :=
| sm_subst n p : same_match (ASubst n p) (ASubst n p)
| sm_num f g c e h : digits_text f = digits_text g -> same_option same_expr e h -> same_match (ANumeric f c e) (ANumeric g c h).

(** A match that is no definition of a variable by a regular expression *)
Definition no_definition (m : amatch) : Prop := match m with ASubst _ (Some _) => False | _ => True end.
Definition prefix_settled (p : aprefix) : Prop := match p with AMatch m => no_definition m | _ => True end.

(** The number of the first value in a list that is the same as a given one *)
Fixpoint first_index {K} (same : K -> K -> bool) (p : K) (l : list K) (k : nat) : option nat :=
  match l with [] => None | x :: r => if same p x then Some k else first_index same p r (S k) end.
