(** How a group of CHECK-DAG texts is looked for: one sweep over the range.  At the first place where one of the texts stands,
    the longest of those that stand there counts, and the sweep goes on after it; a text that has been seen before is
    passed over.  The group matches if every text is seen. *)
From Verif Require Import Base Text_Model Cursor_Model Check_Model Lit_Spec.
Open Scope list_scope.

Section Sweep.
(** The texts, each with its place in the check file; the range ends at [e]. *)
Context (b : bytes) (ts : list (bytes * nat)) (e : nat).
Definition fits (t : bytes) (i : nat) : Prop := i + length t <= e /\ text_at false b t i.
(** The text number [k] is the one that the sweep meets next after [pos], at [i]. *)
Definition next_text (pos k i : nat) (t : bytes) (at_ : nat) : Prop :=
  nth_error ts k = Some (t, at_) /\ pos <= i /\ fits t i /\
  (forall u a i', In (u, a) ts -> pos <= i' < i -> ~ fits u i') /\
  forall u a, In (u, a) ts -> fits u i -> length u <= length t.
(** [seen]: the numbers of the texts seen before *)
Inductive swept : nat -> list nat -> list minfo -> Prop :=
| sw_done pos seen : (forall k, k < length ts -> In k seen) -> swept pos seen []
| sw_new pos seen k i t a out : next_text pos k i t a -> ~ In k seen -> swept (i + length t) (k :: seen) out ->
    swept pos seen (mkInfo (mkRange i (i + length t)) k a :: out)
| sw_again pos seen k i t a out : next_text pos k i t a -> In k seen -> swept (i + length t) seen out -> swept pos seen out.
End Sweep.
