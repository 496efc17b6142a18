(** Model of core/src/diagnostics/span.rs and of the index and number types of core/src/diagnostics/source_file.rs:804-1242:
    byte indices, line and column numbers, spans.
    A [u32] is a [Z] from 0 to 2^32-1, an [i32] one from -2^31 to 2^31-1, an [i64] one from -2^63 to 2^63-1, a [usize] one
    from 0 to 2^64-1.  [checks]: whether the program was built with overflow checks (debug builds): an operator that
    overflows then panics, otherwise it wraps.  [Bad]: undefined behaviour ([NonZeroU32::new_unchecked(0)]). *)
From Coq Require Import String.
From Verif Require Import Base Text_Model.
Open Scope list_scope.
Open Scope Z_scope.

Definition u32_top : Z := 2 ^ 32.
Definition i64_top : Z := 2 ^ 63.
Definition usize_top : Z := 2 ^ 64.
Definition is_u32 (n : Z) : Prop := 0 <= n < u32_top.
(** the [as u32] conversion keeps the low 32 bits *)
Definition as_u32 (n : Z) : Z := n mod u32_top.
(** [as] to [i64]: two's complement *)
Definition as_i64 (n : Z) : Z := (n + i64_top) mod usize_top - i64_top.

(** The outcome of an operation *)
Inductive out (A : Type) := Ok (a : A) | Aborts | Bad.
Arguments Ok {A} a.
Arguments Aborts {A}.
Arguments Bad {A}.
Definition obind {A B} (x : out A) (f : A -> out B) : out B := match x with Ok a => f a | Aborts => Aborts | Bad => Bad end.
(** [Option::expect] *)
Definition expect {A} (x : option A) : out A := match x with Some a => Ok a | None => Aborts end.

Section Arith.
Context (checks : bool).
(** [+] and [-] on [u32], [+] and [-] on [i64] *)
Definition op_u32 (n : Z) : out Z := if (0 <=? n) && (n <? u32_top) then Ok n else if checks then Aborts else Ok (as_u32 n).
Definition op_i64 (n : Z) : out Z := if (- i64_top <=? n) && (n <? i64_top) then Ok n else if checks then Aborts else Ok (as_i64 n).
(** [u32::checked_add], [checked_sub], [checked_add_signed] on the exact result *)
Definition checked_u32 (n : Z) : option Z := if (0 <=? n) && (n <? u32_top) then Some n else None.
(** [u32::saturating_add], [saturating_sub], [saturating_add_signed] on the exact result *)
Definition saturating_u32 (n : Z) : Z := if n <? 0 then 0 else if n <? u32_top then n else u32_top - 1.

(** * Byte indices: source_file.rs:809-902; offsets ([i64]): source_file.rs:906-952 *)
(** source_file.rs:830-836, 846-850 *)
Definition byte_add_offset (i o : Z) : out Z := obind (op_i64 (i + o)) (fun s => Ok (as_u32 s)).
(** source_file.rs:838-844, 852-856 *)
Definition byte_add (i n : Z) : out Z := op_u32 (i + n).
(** source_file.rs:858-864, 874-878 *)
Definition byte_sub_offset (i o : Z) : out Z := obind (op_i64 (i - o)) (fun s => Ok (as_u32 s)).
(** source_file.rs:866-872, 880-884 *)
Definition byte_sub (i n : Z) : out Z := op_u32 (i - n).
(** source_file.rs:920-932 *)
Definition offset_add (a b : Z) : out Z := op_i64 (a + b).
(** source_file.rs:934-946 *)
Definition offset_sub (a b : Z) : out Z := op_i64 (a - b).

(** * Line and column indices (from 0) and numbers (from 1): source_file.rs:954-1242.  A number is a [NonZeroU32]. *)
(** [NonZeroU32::new_unchecked] *)
Definition nonzero_unchecked (n : Z) : out Z := if n =? 0 then Bad else Ok n.
(** [NonZeroU32::new]; source_file.rs:1111-1116 [Number::new] *)
Definition number_new (n : Z) : option Z := if n =? 0 then None else Some n.
(** source_file.rs:981-983 [Index::number], 1174-1179 [From<Index> for Number] *)
Definition index_number (i : Z) : out Z := obind (op_u32 (i + 1)) nonzero_unchecked.
(** source_file.rs:1119-1121 [Number::to_index] *)
Definition number_to_index (n : Z) : Z := saturating_u32 (n - 1).
(** source_file.rs:1036-1041 [From<Number> for Index] *)
Definition index_of_number (n : Z) : out Z := op_u32 (n - 1).
(** source_file.rs:998-1010 *)
Definition index_checked_add (i n : Z) : option Z := checked_u32 (i + n).
Definition index_checked_add_signed (i n : Z) : option Z := checked_u32 (i + n).
Definition index_checked_sub (i n : Z) : option Z := checked_u32 (i - n).
(** source_file.rs:1013-1026 *)
Definition index_saturating_add (i n : Z) : Z := saturating_u32 (i + n).
Definition index_saturating_add_signed (i n : Z) : Z := saturating_u32 (i + n).
Definition index_saturating_sub (i n : Z) : Z := saturating_u32 (i - n).
(** source_file.rs:1043-1057, 1059-1073 ([i32]), 1075-1089 *)
Definition index_add (i n : Z) : out Z := op_u32 (i + n).
Definition index_add_signed (i n : Z) : out Z := expect (index_checked_add_signed i n).
Definition index_sub (i n : Z) : out Z := op_u32 (i - n).
(** source_file.rs:1136-1148; [NonZeroU32::checked_add] *)
Definition number_checked_add (n k : Z) : option Z := checked_u32 (n + k).
Definition and_new (x : option Z) : option Z := match x with Some m => number_new m | None => None end.
Definition number_checked_add_signed (n k : Z) : option Z := and_new (checked_u32 (n + k)).
Definition number_checked_sub (n k : Z) : option Z := and_new (checked_u32 (n - k)).
(** source_file.rs:1151-1164; [unwrap_or_default] with source_file.rs:1104-1108 *)
Definition number_saturating_add (n k : Z) : out Z := nonzero_unchecked (saturating_u32 (n + k)).
Definition or_default (x : option Z) : Z := match x with Some m => m | None => 1 end.
Definition number_saturating_add_signed (n k : Z) : Z := or_default (number_new (saturating_u32 (n + k))).
Definition number_saturating_sub (n k : Z) : Z := or_default (number_new (saturating_u32 (n - k))).
(** source_file.rs:1181-1195, 1197-1213 ([i32]), 1215-1232 *)
Definition number_add (n k : Z) : out Z := obind (op_u32 (n + k)) nonzero_unchecked.
Definition number_add_signed (n k : Z) : out Z := expect (number_checked_add_signed n k).
Definition number_sub (n k : Z) : out Z := expect (number_checked_sub n k).

(** * Spans *)
(** span.rs:331-336; source identifiers are compared as numbers, the unknown one is the default (0 here: see [is_unknown]) *)
Record span := mkSpan { s_source : Z; s_start : Z; s_end : Z }.
(** span.rs:373-383 [try_from_range]; span.rs:388-394 [from_range_unchecked]; bounds are [usize] *)
Definition from_range_unchecked (id lo hi : Z) : span := mkSpan id (as_u32 lo) (as_u32 hi).
Definition try_from_range (id lo hi : Z) : option span :=
  if (u32_top - 1 <? lo) || (u32_top - 1 <? hi) then None else Some (from_range_unchecked id lo hi).
(** span.rs:363-370 [at], with a [u32]; span.rs:117-123 [Span::at] with a [usize] *)
Definition span_at (id off : Z) : span := mkSpan id off off.
Definition spanned_at (id off : Z) : out span := if off <? u32_top then Ok (span_at id off) else Aborts.
(** span.rs:431-433 [len]: a subtraction of [usize] *)
Definition op_usize (n : Z) : out Z := if (0 <=? n) && (n <? usize_top) then Ok n else if checks then Aborts else Ok (n mod usize_top).
Definition span_len (s : span) : out Z := op_usize (s_end s - s_start s).
(** span.rs:436-438 [is_empty] *)
Definition span_is_empty (s : span) : out bool := obind (span_len s) (fun n => Ok (n =? 0)).
(** span.rs:442-450 [into_range], [into_slice_index]: [Range::new] asserts (range.rs:64-71) *)
Definition into_range (s : span) : out (Z * Z) := if s_start s <=? s_end s then Ok (s_start s, s_end s) else Aborts.
(** span.rs:194-203 [Span::shift], [Span::extend] *)
Definition span_shift (s : span) (o : Z) : out span :=
  obind (byte_add_offset (s_start s) o) (fun lo => obind (byte_add_offset (s_end s) o) (fun hi => Ok (mkSpan (s_source s) lo hi))).
Definition span_extend (s : span) (o : Z) : out span := obind (byte_add_offset (s_end s) o) (fun hi => Ok (mkSpan (s_source s) (s_start s) hi)).
(** span.rs:488-495: indexing of bytes; slices panic on inverted ends and on ends beyond the slice *)
Definition slice_at (b : bytes) (s : span) : out bytes :=
  if (s_start s <=? s_end s) && (s_end s <=? Z.of_nat (length b))
  then Ok (firstn (Z.to_nat (s_end s - s_start s)) (skipn (Z.to_nat (s_start s)) b)) else Aborts.
(** span.rs:328: the derived order compares the source, then the start, then the end *)
Definition span_cmp (a c : span) : comparison :=
  match s_source a ?= s_source c with
  | Eq => match s_start a ?= s_start c with Eq => s_end a ?= s_end c | r => r end
  | r => r
  end.
End Arith.

(** span.rs:55-58: a value with a span *)
Record spanned (A : Type) := mkSpanned { sp_span : span; sp_value : A }.
Arguments mkSpanned {A}.
Arguments sp_span {A}.
Arguments sp_value {A}.
(** span.rs:281-293 [==], 295-306 [cmp], 308-312 [hash]: those of the value *)
Definition spanned_eqb {A} (eqb : A -> A -> bool) (a c : spanned A) : bool := eqb (sp_value a) (sp_value c).
Definition spanned_cmp {A} (cmp : A -> A -> comparison) (a c : spanned A) : comparison := cmp (sp_value a) (sp_value c).
Definition spanned_hash {A H} (hash : A -> H) (a : spanned A) : H := hash (sp_value a).
(** span.rs:154-162 [map] *)
Definition spanned_map {A B} (f : A -> B) (a : spanned A) : spanned B := mkSpanned (sp_span a) (f (sp_value a)).

(** source_file.rs:785-801 [compute_line_starts] of a whole text: line feeds are followed by a start, kept in 32 bits.
    (Texts are not longer than [isize::MAX], so that [offset + 1] does not overflow.) *)
Fixpoint starts_from (n : Z) (t : bytes) : list Z :=
  match t with [] => [] | c :: r => if N.eqb c 10 then as_u32 (n + 1) :: starts_from (n + 1) r else starts_from (n + 1) r end.
Definition line_starts32 (t : bytes) : list Z := 0 :: starts_from 0 t.
