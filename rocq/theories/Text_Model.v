(** Model of core/src/range.rs and core/src/text/mod.rs: ranges of offsets, newline searches over
    byte buffers, and white space canonicalisation over code points.
    Offsets are [nat]; the overflow of [usize] at [usize::MAX] is not modelled. *)
From Verif Require Import Base.

Definition bytes := list N.

(** range.rs:36-39 *)
Record range := mkRange { rstart : nat; rend : nat }.

(** range.rs:63-72 [Range::new]; [None] is the failed assertion. *)
Definition range_new (s e : nat) : option range :=
  if s <=? e then Some (mkRange s e) else None.
(** range.rs:80-83 *)
Definition range_is_empty (r : range) : bool := negb (rstart r <? rend r).
(** range.rs:85-92, through [RangeBounds] with an included start and an excluded end *)
Definition range_contains (r : range) (n : nat) : bool := (rstart r <=? n) && (n <? rend r).
(** range.rs:95-98; subtraction, never underflows for a range built by [Range::new] *)
Definition range_len (r : range) : nat := rend r - rstart r.

(** range.rs:18-20: the constant called ONE is 0 *)
Definition ONE : nat := 0.

(** range.rs:100-111 *)
Definition pop_front (r : range) : option nat * range :=
  let item := rstart r in
  let next := item + ONE in
  if next <=? rend r then (Some item, mkRange next (rend r)) else (None, r).
(** range.rs:113-123 *)
Definition pop_back (r : range) : option nat * range :=
  if rstart r =? rend r then (None, r)
  else let item := rend r - ONE in (Some item, mkRange (rstart r) item).
(** range.rs:127-131 *)
Definition shrink_front (r : range) (n : nat) : range :=
  mkRange (Nat.min (rstart r + n) (rend r)) (rend r).
(** range.rs:137-142; [None] is the failed assertion, which is strict *)
Definition truncate (r : range) (n : nat) : option range :=
  if n <? range_len r then Some (mkRange (rstart r) (rstart r + n)) else None.

(** range.rs:159-173 [PartialOrd]/[Ord] *)
Definition range_cmp (a b : range) : comparison :=
  match Nat.compare (rstart a) (rstart b) with
  | Eq => Nat.compare (rend a) (rend b)
  | c => c
  end.

(** core::ops::Bound *)
Inductive bound := Included (i : nat) | Excluded (i : nat) | Unbounded.

(** range.rs:218-237; the error carries the requested (start, end) *)
Definition resolve_start (b : bound) (d : nat) : nat :=
  match b with Included i => i | Excluded i => i + 1 | Unbounded => d end.
Definition resolve_end (b : bound) (d : nat) : nat :=
  match b with Included i => i + 1 | Excluded i => i | Unbounded => d end.
Definition range_from_bounds (s e : bound) (allowed : range) : range + (nat * nat) :=
  let start := resolve_start s (rstart allowed) in
  let stop := resolve_end e (rend allowed) in
  if ((stop <? start) || (start <? rstart allowed) || (rend allowed <? stop))%bool
  then inr (start, stop) else inl (mkRange start stop).
(** range.rs:239-255; [None] is the failed assertion of [Range::new] *)
Definition range_from_bounds_with_defaults (s e : bound) (ds de : nat) : option range :=
  range_new (resolve_start s ds) (resolve_end e de).

(** Slice indexing; [None] is the out-of-range panic. *)
Definition slice (b : bytes) (r : range) : option bytes :=
  if ((rstart r <=? rend r) && (rend r <=? length b))%bool
  then Some (firstn (rend r - rstart r) (skipn (rstart r) b)) else None.

(** memchr / memrchr *)
Fixpoint memchr (c : N) (b : bytes) : option nat :=
  match b with
  | [] => None
  | x :: r => if N.eqb x c then Some 0 else option_map S (memchr c r)
  end.
Fixpoint memrchr (c : N) (b : bytes) : option nat :=
  match b with
  | [] => None
  | x :: r => match memrchr c r with
              | Some i => Some (S i)
              | None => if N.eqb x c then Some 0 else None
              end
  end.
Definition LF : N := 10.
Definition CR : N := 13.

(** text/mod.rs:8-24 *)
Inductive line_ending := LeLf | LeCrlf | LeNone.
Record newline := mkNl { nl_offset : nat; nl_ty : line_ending }.
(** text/mod.rs:31-38 *)
Definition next_line_start (n : newline) : nat :=
  match nl_ty n with LeLf => nl_offset n + 1 | LeCrlf => nl_offset n + 2 | LeNone => nl_offset n end.
(** text/mod.rs:53-82 [next_from]; [None] is the slice panic *)
Definition newline_next_from (b : bytes) (offset : nat) : option newline :=
  match slice b (mkRange offset (length b)) with
  | None => None
  | Some t => Some (
      match memchr LF t with
      | Some i =>
          let index := offset + i in
          if 0 <? index then
            if N.eqb (nth (index - 1) b 0%N) CR then mkNl (index - 1) LeCrlf else mkNl index LeLf
          else mkNl index LeLf
      | None => mkNl (length b) LeNone
      end)
  end.
(** text/mod.rs:92-120 [prev_from] *)
Definition newline_prev_from (b : bytes) (offset : nat) : option newline :=
  match slice b (mkRange 0 offset) with
  | None => None
  | Some t => Some (
      match memrchr LF t with
      | Some index =>
          if 0 <? index then
            if N.eqb (nth (index - 1) b 0%N) CR then mkNl (index - 1) LeCrlf else mkNl index LeCrlf
          else mkNl index LeLf
      | None => mkNl 0 LeNone
      end)
  end.
(** text/mod.rs:85-87 *)
Definition newline_prev (b : bytes) : option newline := newline_prev_from b 0.

(** text/mod.rs:123-157.  Outer [None]: slice panic. *)
Definition find_next_lf (b : bytes) (r : range) : option (option nat) :=
  option_map (fun t => option_map (fun i => rstart r + i) (memchr LF t)) (slice b r).
Definition find_prev_lf (b : bytes) (r : range) : option (option nat) :=
  option_map (fun t => option_map (fun i => rstart r + i) (memrchr LF t)) (slice b r).
Definition crlf_at (b : bytes) (i : option nat) : option nat :=
  match i with
  | Some 0 => None
  | Some index => if N.eqb (nth (index - 1) b 0%N) CR then Some (index - 1) else None
  | None => None
  end.
Definition find_next_crlf (b : bytes) (r : range) : option (option nat) :=
  option_map (fun t => crlf_at b (memchr LF t)) (slice b r).
Definition find_prev_crlf (b : bytes) (r : range) : option (option nat) :=
  option_map (fun t => crlf_at b (memrchr LF t)) (slice b r).

(** text/mod.rs:159-176 [is_char_boundary] *)
Definition is_char_boundary (b : bytes) (offset : nat) : bool :=
  match nth_error b offset with
  | None => offset =? length b
  | Some x => ((x <=? 127) || (192 <=? x))%N
  end.

(** text/mod.rs:193-206 *)
Definition is_non_canonical_horizontal_whitespace (c : N) : bool :=
  (N.eqb c 9 || N.eqb c 160 || N.eqb c 5760 || ((8192 <=? c) && (c <=? 8202))
   || N.eqb c 8239 || N.eqb c 8287 || N.eqb c 12288)%N.
(** text/mod.rs:178-191; borrowing is not modelled *)
Definition canonicalize_horizontal_whitespace (s : str) (strict : bool) : str :=
  if strict then s
  else if existsb is_non_canonical_horizontal_whitespace s
  then map (fun c => if is_non_canonical_horizontal_whitespace c then 32%N else c) s
  else s.
