(** What a user of the path index means: a history of insertions, the value a path has after it, and
    the enclosing relation between paths.  Nothing here mentions nodes. *)
From Verif Require Import Base Map_Model Tree_Model.

(** [q] strictly encloses [p] *)
Definition below (q p : path) : Prop := exists r, r <> [] /\ p = q ++ r.
(** a path as the operating system writes it: not empty, the root only in front *)
Definition valid (p : path) : Prop := p <> [] /\ ~ In Root (tl p).

(** Lexical shortening of a path: [.] is dropped, a name followed by a step up is dropped with it. *)
Inductive shorten : list (option comp) -> list (option comp) -> Prop :=
| sh_dot a b : shorten (a ++ None :: b) (a ++ b)
| sh_up a x b : shorten (a ++ Some (Name x) :: Some Parent :: b) (a ++ b).
Inductive shortened : list (option comp) -> list (option comp) -> Prop :=
| sd_refl a : shortened a a
| sd_step a b c : shorten a b -> shortened b c -> shortened a c.
(** Steps up come first. *)
Definition steps_first (p : path) : Prop := exists k names, p = repeat Parent k ++ map Name names.

(** one insertion: the canonical path, what the file system says it is, the value *)
Definition ins V := (path * ptype * V)%type.
Section S.
Context {V : Type}.
(** the last value inserted under [q], if any *)
Definition last_value (h : list (ins V)) (q : path) : option V :=
  fold_left (fun acc i => if path_eqb (fst (fst i)) q then Some (snd i) else acc) h None.
Definition inserted (h : list (ins V)) (q : path) : Prop := In q (map (fun i => fst (fst i)) h).
Definition inserted_as (h : list (ins V)) (q : path) (ty : ptype) : Prop := In (q, ty) (map fst h).
(** every path is well formed, and a path of a single component (the root directory) is a directory *)
Definition well_formed (h : list (ins V)) : Prop :=
  forall p ty, In (p, ty) (map fst h) -> valid p /\ (length p = 1 -> ty = Dir).

(** running a history: what succeeded, in order, and the final tree *)
Fixpoint run_from (t : ptree V) (h : list (ins V)) : list (ins V) * ptree V :=
  match h with
  | [] => ([], t)
  | i :: r => let '(t', e) := try_insert t (fst (fst i)) (snd (fst i)) (snd i) in
              let '(ok, t'') := run_from t' r in
              (match e with None => i :: ok | Some _ => ok end, t'')
  end.
Definition run (h : list (ins V)) : list (ins V) * ptree V := run_from new_tree h.

(** a history of paths that exist, while the file system does not change: each is a file or a directory,
    always the same, and nothing is below a file *)
Definition settled (h : list (ins V)) : Prop :=
  (forall p ty, inserted_as h p ty -> ty <> Unknown) /\
  (forall p, inserted_as h p File -> inserted_as h p Dir -> False) /\
  (forall p q, inserted_as h q File -> inserted h p -> ~ below q p).
End S.
