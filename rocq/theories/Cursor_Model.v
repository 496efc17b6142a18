(** Model of filecheck/src/cursor.rs and of the parts of filecheck/src/input.rs it uses.
    Offsets are [nat]; the conversion of the line end to [u32] (inputs of 4 GiB and more) is not
    modelled.  The look-around matcher of [regex-automata] is modelled from its documentation. *)
From Verif Require Import Base Text_Model.

(** The outcome of a computation: a value, a [DiagResult] error, or an abort (panic). *)
Inductive res (A : Type) := Val (a : A) | Err | Panic.
Arguments Val {A} a.
Arguments Err {A}.
Arguments Panic {A}.
Definition bind {A B} (x : res A) (f : A -> res B) : res B :=
  match x with Val a => f a | Err => Err | Panic => Panic end.
Notation "'do' x <- e ; f" := (bind e (fun x => f)) (at level 200, x pattern, e at level 100, f at level 200).
(** [Option::unwrap] / [expect] *)
Definition unwrap {A} (x : option A) : res A := match x with Some a => Val a | None => Panic end.
(** [assert!] *)
Definition assert (b : bool) : res unit := if b then Val tt else Panic.

(** cursor.rs:20-37 *)
Record cursor := mkCursor { c_buf : bytes; c_block : range; c_eol : nat; c_crlf : bool }.

Definition is_crlf_nl (n : newline) : bool := match nl_ty n with LeCrlf => true | _ => false end.
(** cursor.rs:39-50 *)
Definition cursor_new (b : bytes) : res cursor :=
  do n <- unwrap (newline_next_from b 0);
  Val (mkCursor b (mkRange 0 (length b)) (nl_offset n) (is_crlf_nl n)).

(** [range_from_bounds(range, 0..len).unwrap()], as used at cursor.rs:175, 300, 313 and input.rs:37-42 *)
Definition bounds_of (b : bytes) (s e : bound) : res range :=
  match range_from_bounds s e (mkRange 0 (length b)) with inl r => Val r | inr _ => Panic end.

(** cursor.rs:94-119 *)
Definition c_start (c : cursor) : nat := rstart (c_block c).
Definition c_end (c : cursor) : nat := rend (c_block c).
Definition end_of_file (c : cursor) : nat := length (c_buf c).
Definition end_of_line (c : cursor) : nat := c_eol c.

(** cursor.rs:296-319 *)
Definition next_newline_in_range (c : cursor) (s e : bound) : res (option nat) :=
  do r <- bounds_of (c_buf c) s e;
  unwrap (if c_crlf c then find_next_crlf (c_buf c) r else find_next_lf (c_buf c) r).
Definition prev_newline_in_range (c : cursor) (s e : bound) : res (option nat) :=
  do r <- bounds_of (c_buf c) s e;
  unwrap (if c_crlf c then find_prev_crlf (c_buf c) r else find_prev_lf (c_buf c) r).
(** cursor.rs:286-293 *)
Definition next_newline_from (c : cursor) (o : nat) := next_newline_in_range c (Included o) Unbounded.
Definition prev_newline_from (c : cursor) (o : nat) := prev_newline_in_range c Unbounded (Excluded o).

Definition unwrap_or (x : option nat) (d : nat) : nat := match x with Some n => n | None => d end.

(** cursor.rs:124-128 *)
Definition reset (c : cursor) : res cursor :=
  do n <- unwrap (newline_next_from (c_buf c) 0);
  Val (mkCursor (c_buf c) (mkRange 0 (length (c_buf c))) (nl_offset n) (c_crlf c)).

(** cursor.rs:139-142, 146-149: the end of the line within the block *)
Definition eol_in_block (c : cursor) : res nat :=
  do o <- next_newline_in_range c (Included (c_start c)) (Excluded (c_end c));
  Val (unwrap_or o (c_end c)).
(** cursor.rs:131-153 *)
Definition set_start (c : cursor) (start : nat) : res cursor :=
  let prev := c_start c in
  let c' := mkCursor (c_buf c) (mkRange (Nat.min start (c_end c)) (c_end c)) (c_eol c) (c_crlf c) in
  match Nat.compare start prev with
  | Gt => if c_eol c <? c_start c'
          then do e <- eol_in_block c'; Val (mkCursor (c_buf c) (c_block c') e (c_crlf c))
          else Val c'
  | Lt => do e <- eol_in_block c'; Val (mkCursor (c_buf c) (c_block c') e (c_crlf c))
  | Eq => Val c'
  end.
(** cursor.rs:76-81 and 156-159: a saved position is a block and a line end *)
Definition position (c : cursor) : range * nat := (c_block c, c_eol c).
Definition move_to (c : cursor) (p : range * nat) : cursor :=
  mkCursor (c_buf c) (fst p) (snd p) (c_crlf c).
(** cursor.rs:162-165 *)
Definition move_to_end (c : cursor) : cursor :=
  mkCursor (c_buf c) (mkRange (c_end c) (c_end c)) (c_end c) (c_crlf c).
(** cursor.rs:170-177 *)
Definition set_bounds (c : cursor) (s e : bound) : res cursor :=
  do r <- bounds_of (c_buf c) s e;
  let c' := mkCursor (c_buf c) r (c_eol c) (c_crlf c) in
  do o <- next_newline_from c' (rstart r);
  Val (mkCursor (c_buf c) r (unwrap_or o (length (c_buf c))) (c_crlf c)).
(** cursor.rs:202-204 *)
Definition start_of_next_line (c : cursor) : res nat :=
  do n <- unwrap (newline_next_from (c_buf c) (c_start c)); Val (next_line_start n).

(** [LookMatcher::is_end_lf] and [is_end_crlf] of regex-automata; [None] is the index panic *)
Definition is_end_lf (b : bytes) (at_ : nat) : res bool :=
  if at_ =? length b then Val true
  else do x <- unwrap (nth_error b at_); Val (N.eqb x LF).
Definition is_end_crlf (b : bytes) (at_ : nat) : res bool :=
  if at_ =? length b then Val true
  else do x <- unwrap (nth_error b at_);
       Val (N.eqb x CR || (N.eqb x LF && ((at_ =? 0) || negb (N.eqb (nth (at_ - 1) b 0%N) CR))))%bool.
(** cursor.rs:260-273 *)
Definition is_end_of_line (c : cursor) (o : nat) : res bool :=
  if c_crlf c then is_end_crlf (c_buf c) o else is_end_lf (c_buf c) o.
Definition at_end_of_line (c : cursor) : res bool := is_end_of_line c (c_start c).
(** cursor.rs:185-195; the [debug_assert] is checked in debug builds, as here *)
Definition consume_newline (c : cursor) : res cursor :=
  do ok <- at_end_of_line c;
  do _ <- assert ok;
  do s <- start_of_next_line c;
  Val (mkCursor (c_buf c) (mkRange (Nat.min s (c_end c)) (c_end c)) (c_eol c) (c_crlf c)).

(** cursor.rs:206-231 with input.rs:37-42: the range an [Input] is bounded to *)
Definition search (c : cursor) : range := mkRange 0 (length (c_buf c)).
Definition search_range (c : cursor) (s e : nat) : res range :=
  bounds_of (c_buf c) (Included s) (Excluded e).
Definition search_to_eof (c : cursor) : res range :=
  bounds_of (c_buf c) (Included (c_start c)) Unbounded.
Definition search_block (c : cursor) : res range := search_range c (c_start c) (c_end c).
Definition search_line (c : cursor) : res range := search_range c (c_start c) (c_eol c).
