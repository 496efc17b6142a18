(** Specification for the cursor. *)
From Verif Require Import Base Text_Model Text_Spec Cursor_Model.

(** [i] is where the line that [s] is on ends: the first line feed at or after [s], or the end
    of the buffer. *)
Definition line_end (b : bytes) (s i : nat) : Prop :=
  s <= i <= length b /\ none_in b LF s i /\ (i = length b \/ byte_at b i LF).

(** Everything a client may do with a cursor (apart from consuming a newline). *)
Inductive cursor_op := SetStart (n : nat) | SetBounds (s e : bound) | Reset | MoveToEnd | Save | Restore.
(** Running operations; a saved position is kept beside the cursor. *)
Definition run_op (st : cursor * (range * nat)) (o : cursor_op) : res (cursor * (range * nat)) :=
  let (c, p) := st in
  match o with
  | SetStart n => do c' <- set_start c n; Val (c', p)
  | SetBounds s e => do c' <- set_bounds c s e; Val (c', p)
  | Reset => do c' <- reset c; Val (c', p)
  | MoveToEnd => Val (move_to_end c, p)
  | Save => Val (c, position c)
  | Restore => Val (move_to c p, p)
  end.
Fixpoint run_ops (st : cursor * (range * nat)) (l : list cursor_op) : res (cursor * (range * nat)) :=
  match l with [] => Val st | o :: r => do st' <- run_op st o; run_ops st' r end.

(** The bounds a client may ask for are those inside the buffer. *)
Definition valid_op (b : bytes) (o : cursor_op) : Prop :=
  match o with
  | SetBounds s e =>
      exists lo hi, begins s (mkRange 0 (length b)) lo /\ stops e (mkRange 0 (length b)) hi
                    /\ lo <= hi <= length b
  | _ => True
  end.

(** What a client may rely on. *)
Definition cursor_ok (b : bytes) (c : cursor) : Prop :=
  c_buf c = b /\ c_start c <= c_end c <= length b /\
  exists i, line_end b (c_start c) i /\ (end_of_line c = i \/ end_of_line c = Nat.min i (c_end c)).
