(** White space and whole lines: what --strict-whitespace and --match-full-lines are to do. *)
From Verif Require Import Base Text_Model Parse_Model Parse_Spec Whole_Model.
Open Scope list_scope. Open Scope nat_scope.

(** The options with --match-full-lines set, or not *)
Definition with_full (full : bool) (o : options) : options :=
  mkOptions (mkConfig (check_prefixes (o_parse o)) (comment_prefixes (o_parse o)) (strict_whitespace (o_parse o)) full (allow_unused (o_parse o)))
    (o_ci o) (o_scoped o) (o_allow o) (o_imp o) (o_defs o).
(** A text whose white space is single spaces and line feeds *)
Definition single_spaced (s : str) : Prop :=
  (forall c, In c s -> ws c -> c = 32%N \/ c = 10%N) /\ forall a c d b, s = a ++ c :: d :: b -> ws c -> ws d -> False.
(** A part of the input that is a whole line, but for white space around it *)
Definition whole_line (b : bytes) (r : range) : Prop :=
  exists s e, (s = 0 \/ nth_error b (s - 1) = Some LF) /\ (e = length b \/ nth_error b e = Some LF) /\ s <= rstart r /\ rend r <= e /\
    (forall i c, s <= i < rstart r \/ rend r <= i < e -> nth_error b i = Some c -> ws c).
