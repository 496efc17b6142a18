(** What a list with a cursor is expected to do: a sequence cut in two, the cursor pointing at the
    first element of the second part, or at the null position when that part is empty. *)
From Verif Require Import Base.
Section S.
Context {A : Type}.

Definition zip : Type := list A * list A.
(** Operations through a cursor, with what they answer. *)
Inductive cop := Next | Prev | Get | IsNull | Remove | InsAfter (x : A) | InsBefore (x : A) | SplAfter (l : list A) | SplBefore (l : list A) | SplitAfter.
Inductive out := ONone | OItem (x : option A) | OBool (b : bool) | OList (len : nat) (l : list A).
Definition z_step (z : zip) (o : cop) : out * zip :=
  match o, z with
  | Next, (p, c :: q) => (ONone, (p ++ [c], q))
  | Next, (p, []) => (ONone, ([], p))
  | Prev, ([], q) => (ONone, (q, []))
  | Prev, (p, q) => (ONone, (removelast p, match rev p with x :: _ => x :: q | [] => q end))
  | Get, (p, q) => (OItem (hd_error q), (p, q))
  | IsNull, (p, q) => (OBool (match q with [] => true | _ => false end), (p, q))
  | Remove, (p, q) => (OItem (hd_error q), (p, tl q))
  | InsAfter x, (p, c :: q) => (ONone, (p, c :: x :: q))
  | InsAfter x, (p, []) => (ONone, (x :: p, []))
  | InsBefore x, (p, q) => (ONone, (p ++ [x], q))
  | SplAfter l, (p, c :: q) => (ONone, (p, c :: l ++ q))
  | SplAfter l, (p, []) => (ONone, (l ++ p, []))
  | SplBefore l, (p, q) => (ONone, (p ++ l, q))
  | SplitAfter, (p, c :: q) => (OList (length q) q, (p, [c]))
  | SplitAfter, (p, []) => (OList (length p) p, ([], []))
  end.
Fixpoint z_run (z : zip) (l : list cop) : list out * zip :=
  match l with
  | [] => ([], z)
  | o :: r => let '(x, z') := z_step z o in let '(xs, z'') := z_run z' r in (x :: xs, z'')
  end.

(** Operations on the list. *)
Inductive lop := Push (x : A) | PopFront | PopBack | Clear | Append (l : list A) | Len | IsEmpty | Iterate | AtFront (l : list cop) | AtBack (l : list cop).
Definition s_step (s : list A) (o : lop) : list out * list A :=
  match o with
  | Push x => ([], s ++ [x])
  | PopFront => ([OItem (hd_error s)], tl s)
  | PopBack => ([OItem (hd_error (rev s))], removelast s)
  | Clear => ([], [])
  | Append l => ([], s ++ l)
  | Len => ([OList (length s) []], s)
  | IsEmpty => ([OBool (match s with [] => true | _ => false end)], s)
  | Iterate => ([OList (length s) s], s)
  | AtFront l => let '(xs, (p, q)) := z_run ([], s) l in (xs, p ++ q)
  | AtBack l => let '(xs, (p, q)) := z_run (removelast s, match rev s with x :: _ => [x] | [] => [] end) l in (xs, p ++ q)
  end.
Fixpoint s_run (s : list A) (l : list lop) : list out * list A :=
  match l with
  | [] => ([], s)
  | o :: r => let '(x, s') := s_step s o in let '(xs, s'') := s_run s' r in (x ++ xs, s'')
  end.
End S.
Arguments cop A : clear implicits.
Arguments lop A : clear implicits.
Arguments out A : clear implicits.
