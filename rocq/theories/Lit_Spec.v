(** Specification for literal patterns. *)
From Verif Require Import Base Text_Model Text_Spec Cursor_Model Check_Model Program_Model Lit_Model.

(** The same character; with --ignore-case, or the same letter in the other case. *)
Definition alike (ci : bool) (x y : N) : Prop :=
  x = y \/ ci = true /\ exists u, (65 <= u <= 90)%N /\ ((x = u /\ y = u + 32) \/ (y = u /\ x = u + 32))%N.
(** The text stands at offset [i] of the input. *)
Definition text_at (ci : bool) (b t : bytes) (i : nat) : Prop :=
  forall k x, nth_error t k = Some x -> exists y, nth_error b (i + k) = Some y /\ alike ci x y.
(** An occurrence of the literal inside the range. *)
Definition occurrence (ci : bool) (b : bytes) (p : lit) (s e i : nat) : Prop :=
  s <= i /\ i + length (lit_text p) <= e /\ text_at ci b (lit_text p) i.
Definition first_occurrence (ci : bool) (b : bytes) (p : lit) (s e i : nat) : Prop :=
  occurrence ci b p s e i /\ forall j, occurrence ci b p s e j -> i <= j.

(** Occurrences of the literals one after the other, each starting where the previous one ended or
    later. *)
Fixpoint in_sequence (ci : bool) (b : bytes) (ps : list lit) (s : nat) (is : list nat) : Prop :=
  match ps, is with
  | [], [] => True
  | p :: ps', i :: is' => occurrence ci b p s (length b) i /\ in_sequence ci b ps' (i + length (lit_text p)) is'
  | _, _ => False
  end.

(** The location reported for a literal found at an offset. *)
Definition lit_info (p : lit) (i : nat) : minfo := mkInfo (mkRange i (i + length (lit_text p))) 0 (lit_span p).
Definition infos_at (ps : list lit) (is : list nat) : list minfo := map (fun x => lit_info (fst x) (snd x)) (combine ps is).

(** A check file passes on an input and reports the matches [out]. *)
Definition passes (ci allow : bool) (imp : option lit) (ls : list (line (lit_lang ci))) (b : bytes) (out : list minfo) : Prop :=
  exists t, filecheck (L:=lit_lang ci) allow imp ls b tt = Val t /\ t_errors t = [] /\ t_matches t = out.

(** How many matches a directive reports. *)
Definition width_of {L} (l : line L) : nat :=
  match l_kind l with KNot | KLabel => 0 | KCount n => n | _ => 1 end.
Definition width {L} (ls : list (line L)) : nat := list_sum (map width_of ls).
(** Where the region of a directive begins and ends, given the matches reported: from the end of
    the last match before it to the start of the first match after it. *)
Definition region_start {L} (pre : list (line L)) (out : list minfo) : nat :=
  match rev (firstn (width pre) out) with [] => 0 | i :: _ => rend (i_span i) end.
Definition region_end {L} (pre : list (line L)) (out : list minfo) (e : nat) : nat :=
  match skipn (width pre) out with [] => e | i :: _ => rstart (i_span i) end.
