(** Windows line ends. *)
From Verif Require Import Base Text_Model Cursor_Model Check_Model.

(** The input with a carriage return before every line feed. *)
Definition crlf (b : bytes) : bytes := flat_map (fun x => if N.eqb x LF then [CR; LF] else [x]) b.
(** Where an offset of the input is then. *)
Definition moved (b : bytes) (i : nat) : nat := length (crlf (firstn i b)).
Definition relocated (b : bytes) (i : minfo) : minfo :=
  mkInfo (mkRange (moved b (rstart (i_span i))) (moved b (rend (i_span i)))) (i_id i) (i_pspan i).
(** A text inside one line. *)
Definition one_line (t : bytes) : Prop := ~ In LF t /\ ~ In CR t.
