(** Specification of the check files that are safe from aborting. *)
From Verif Require Import Base Text_Model Text_Spec Cursor_Model Cursor_Spec Check_Model Program_Model Check_Spec File_Spec.

Section TotalSpec.
Context {L : lang}.
(** Some CHECK-NOT stands behind a CHECK-DAG and before a directive that must match. *)
Definition trapped (ls : list (line L)) : Prop :=
  exists pre d mid n post p, ls = pre ++ d :: mid ++ n :: post /\ l_kind d = KDag /\ l_kind n = KNot /\
    In p post /\ l_kind p <> KNot.
Definition next_free (ls : list (line L)) : Prop := forall l, In l ls -> l_kind l <> KNext.

(** The parts of a file with the directives --implicit-check-not adds: before the first label, and
    below each label. *)
Definition parts (imp : option (pat L)) (f : file L) : list (list (line L)) :=
  with_implicit imp (f_prefix f) :: map (fun bl => implied imp ++ snd bl) (f_blocks f).
(** A file is calm if no part is trapped and CHECK-NEXT occurs only in its last part. *)
Definition calm (imp : option (pat L)) (f : file L) : Prop :=
  (forall ls, In ls (parts imp f) -> ~ trapped ls) /\
  (forall before ls after, parts imp f = before ++ ls :: after -> after <> [] -> next_free ls).
End TotalSpec.
