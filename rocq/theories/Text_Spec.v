(** Specifications for ranges, newline searches and white space. *)
From Verif Require Import Base Text_Model.

(** The offsets a pair of bounds admits. *)
Definition above (b : bound) (n : nat) : Prop :=
  match b with Included i => i <= n | Excluded i => i < n | Unbounded => True end.
Definition below (b : bound) (n : nat) : Prop :=
  match b with Included i => n <= i | Excluded i => n < i | Unbounded => True end.
(** [lo] is where the start bound begins, seen from the allowed range; [hi] is where the end
    bound stops. *)
Definition begins (s : bound) (allowed : range) (lo : nat) : Prop :=
  match s with Unbounded => lo = rstart allowed | _ => forall n, above s n <-> lo <= n end.
Definition stops (e : bound) (allowed : range) (hi : nat) : Prop :=
  match e with Unbounded => hi = rend allowed | _ => forall n, below e n <-> n < hi end.

(** The elements of a range, in order. *)
Definition elements (r : range) : list nat := seq (rstart r) (rend r - rstart r).
Definition wf_range (r : range) : Prop := rstart r <= rend r.

(** Position of a byte. *)
Definition byte_at (b : bytes) (i : nat) (c : N) : Prop := nth_error b i = Some c.
(** [i] is the first (last) offset in [s, e) holding [c]. *)
Definition first_in (b : bytes) (c : N) (s e i : nat) : Prop :=
  s <= i < e /\ byte_at b i c /\ forall j, s <= j < i -> ~ byte_at b j c.
Definition last_in (b : bytes) (c : N) (s e i : nat) : Prop :=
  s <= i < e /\ byte_at b i c /\ forall j, i < j < e -> ~ byte_at b j c.
Definition none_in (b : bytes) (c : N) (s e : nat) : Prop :=
  forall j, s <= j < e -> ~ byte_at b j c.
(** A two-byte line terminator starts at [i], inside [s, e). *)
Definition crlf_pair (b : bytes) (i : nat) : Prop := byte_at b i CR /\ byte_at b (S i) LF.
Definition first_crlf (b : bytes) (s e i : nat) : Prop :=
  s <= i /\ S i < e /\ crlf_pair b i /\ forall j, s <= j < i -> ~ crlf_pair b j.

Definition last_crlf (b : bytes) (s e i : nat) : Prop :=
  s <= i /\ S i < e /\ crlf_pair b i /\ forall j, i < j -> S j < e -> ~ crlf_pair b j.

(** Horizontal white space other than the space: tab and Unicode's space separators. *)
Definition horizontal (c : N) : Prop :=
  (c = 9 \/ c = 160 \/ c = 5760 \/ 8192 <= c <= 8202 \/ c = 8239 \/ c = 8287 \/ c = 12288)%N.
