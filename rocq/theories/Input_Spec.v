(** C87: what reading a file means, independently of the model's way of reading it. *)
From Coq Require Import String.
From Verif Require Import Base Text_Model Cursor_Model Source_Model Mgr_Model Input_Model.
Open Scope list_scope.

(** The characters of Unicode and their encoding in UTF-8 (RFC 3629) *)
Definition scalar (c : N) : Prop := (c < 55296 \/ 57344 <= c < 1114112)%N.
Definition encode (c : N) : bytes :=
  (if c <? 128 then [c]
   else if c <? 2048 then [192 + c / 64; 128 + c mod 64]
   else if c <? 65536 then [224 + c / 4096; 128 + c / 64 mod 64; 128 + c mod 64]
   else [240 + c / 262144; 128 + c / 4096 mod 64; 128 + c / 64 mod 64; 128 + c mod 64])%N.
Definition encodes (b : bytes) (cs : list N) : Prop := Forall scalar cs /\ b = concat (map encode cs).
Definition is_utf8 (b : bytes) : Prop := exists cs, encodes b cs.

(** The path "-" is the standard input; everything can be read from [p], and is [b]. *)
Definition contains (y : system) (p : path) (b : bytes) : Prop :=
  p = Utf8 "-"%string /\ sys_stdin y = mkStream b false \/ p <> Utf8 "-"%string /\ sys_open y p = Some (mkStream b false).

(** [u] is [b] with every carriage return that stands before a line feed left out. *)
Inductive unix : bytes -> bytes -> Prop :=
| ux_nil : unix [] []
| ux_crlf r u : unix r u -> unix (CR :: LF :: r) (LF :: u)
| ux_other x r u : (forall t, x :: r <> CR :: LF :: t) -> unix r u -> unix (x :: r) (x :: u).
(** [t] is [u] without the line feed at its end, if it has one. *)
Definition unended (u t : bytes) : Prop := u = t ++ [LF] \/ u = t /\ forall v, u <> v ++ [LF].
(** [w] is [t] with a carriage return put before every line feed. *)
Inductive windows : bytes -> bytes -> Prop :=
| wn_nil : windows [] []
| wn_lf t w : windows t w -> windows (LF :: t) (CR :: LF :: w)
| wn_other x t w : x <> LF -> windows t w -> windows (x :: t) (x :: w).
