(** What is expected of lines and columns, by looking at the text only. *)
From Coq Require Import Sorted.
From Verif Require Import Base Text_Model Text_Spec Cursor_Model Source_Model.

(** The table of line starts: 0 and the offset after every newline, in order. *)
Definition is_line_table (b : bytes) (t : list nat) : Prop :=
  StronglySorted lt t /\ forall x, In x t <-> x = 0 \/ exists i, byte_at b i LF /\ x = i + 1.
(** The line of an offset: the number of newlines before it. *)
Inductive newlines_before (b : bytes) : nat -> nat -> Prop :=
| Nb_0 : newlines_before b 0 0
| Nb_lf x n : newlines_before b x n -> byte_at b x LF -> newlines_before b (S x) (S n)
| Nb_other x n c : newlines_before b x n -> byte_at b x c -> c <> LF -> newlines_before b (S x) n.
(** Bytes as they occur in UTF-8 text: a continuation byte follows a non-ASCII byte. *)
Definition utf8_like (b : bytes) : Prop :=
  forall i x, byte_at b i x -> continues x = true -> exists j y, i = S j /\ byte_at b j y /\ (128 <= y)%N.
Definition ascii (b : bytes) : Prop := forall i x, byte_at b i x -> (x < 128)%N.

(** A position that names a place in its line: line [l] exists, and the column is at most the length
    of the line without its newline.  [x] is the place. *)
Definition place (b : bytes) (p : position) (x : nat) : Prop :=
  newlines_before b x (p_line p) /\ p_char p <= x /\ newlines_before b (x - p_char p) (p_line p) /\
  (x - p_char p = 0 \/ byte_at b (x - p_char p - 1) LF).
(** Replacing the text between two places. *)
Definition replaced (b : bytes) (s e : nat) (text b' : bytes) : Prop :=
  exists pre mid post, b = pre ++ mid ++ post /\ length pre = s /\ length (pre ++ mid) = e /\ b' = pre ++ text ++ post.

(** Editing sessions: each edit replaces the whole text, or the text between two places. *)
Inductive edited : bytes -> list (bytes * option selection * Z) -> bytes -> Prop :=
| Ed_nil b : edited b [] b
| Ed_full b text v l b' : utf8_like text -> edited text l b' -> edited b ((text, None, v) :: l) b'
| Ed_range b text sel v s e b1 l b' : utf8_like text ->
    place b (sel_start sel) s -> place b (sel_end sel) e -> s <= e ->
    is_boundary b s = true -> is_boundary b e = true ->
    replaced b s e text b1 -> edited b1 l b' -> edited b ((text, Some sel, v) :: l) b'.
