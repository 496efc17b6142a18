(** What positions in a document are to do (C96, C97): arithmetic that is exact or refuses, and spans that select bytes. *)
From Verif Require Import Base Text_Model Span_Model.
Open Scope list_scope.
Open Scope Z_scope.

(** An index is a number from 0, a line or column number one from 1; both have 32 bits. *)
Definition index (n : Z) : Prop := 0 <= n < 2 ^ 32.
Definition number (n : Z) : Prop := 1 <= n < 2 ^ 32.

(** A distance between two byte indices has 64 bits and a sign. *)
Definition offset (n : Z) : Prop := - 2 ^ 63 <= n < 2 ^ 63.
(** [x] is the exact result.  An operator returns it if it is one of the values [ok], and aborts otherwise. *)
Definition exact_or_abort (ok : Z -> Prop) (x : Z) (o : out Z) : Prop := (ok x -> o = Ok x) /\ (~ ok x -> o = Aborts).
(** A checked operation returns it if it is one of the values, and nothing otherwise. *)
Definition exact_or_none (ok : Z -> Prop) (x : Z) (o : option Z) : Prop := forall m, o = Some m <-> m = x /\ ok x.
(** A saturating operation returns the value that is nearest. *)
Definition nearest (ok : Z -> Prop) (x m : Z) : Prop := ok m /\ forall k, ok k -> Z.abs (x - m) <= Z.abs (x - k).

(** The span of the bytes from [lo] to [hi] *)
Definition whole_span (s : span) : Prop := index (s_start s) /\ index (s_end s).
(** [t] is the text of a document from [lo] to [hi] *)
Definition stands (b : bytes) (lo hi : Z) (t : bytes) : Prop :=
  exists pre post, b = pre ++ t ++ post /\ Z.of_nat (length pre) = lo /\ Z.of_nat (length pre + length t) = hi.
(** The order of spans: by document, then by start, then by end *)
Definition earlier (a c : span) : Prop :=
  s_source a < s_source c \/ s_source a = s_source c /\ (s_start a < s_start c \/ s_start a = s_start c /\ s_end a < s_end c).
(** Where the lines of a text begin: at 0 and after each line feed *)
Inductive begins (t : bytes) : Z -> Prop :=
| be_first : begins t 0
| be_after pre post : t = pre ++ 10%N :: post -> begins t (Z.of_nat (length pre) + 1).
