(** The check files for which meeting what is asked is also enough for the run to pass (C81). *)
From Coq Require Import String.
From Verif Require Import Base Text_Model Cursor_Model Check_Model Program_Model Check_Spec File_Spec Lit_Model Lit_Spec Env_Model Num_Model Gram_Model Parse_Model
  Regex_Model Smart_Model Smart_Spec Chain_Spec PatSet_Model PatSet_Spec Whole_Model Whole_Spec Demand_Spec Scan_Spec.
Open Scope list_scope.
Open Scope nat_scope.
Notation length := List.length.

Section Exact.
Context (o : options).
Notation ci := (o_ci o).
Notation strict := (o_strict o).
Definition has_substitution (d : dir) : bool := existsb is_dynamic (parts_of (d_pat d)).
(** What the search for the pattern of [d] finds: for a pattern without substitutions, see [finds]; else what the scan for its
    pieces finds (see [scan]).  [n]: how deep variables and operations may be nested *)
Inductive surely (n : nat) (b : bytes) (d : dir) (s e : nat) (E : vars) : minfo -> vars -> Prop :=
| sr_found i E' : has_substitution d = false -> finds o b d s e E i E' -> surely n b d s e E i E'
| sr_scan gs i j E' : has_substitution d = true -> cut_parts ci strict (parts_of (d_pat d)) gs -> s <= e <= length b ->
    scan ci n (d_line d) b e gs s E (Some (i, j, E')) -> surely n b d s e E (mkInfo (mkRange i j) 0 (d_at d)) E'.
(** The directives: patterns with substitutions can be cut (see [cut_parts]); CHECK-DAG has texts. *)
Definition settled_dir (d : dir) : Prop :=
  (searched d -> has_substitution d = true -> exists gs, cut_parts ci strict (parts_of (d_pat d)) gs) /\ (d_kind d = KDag -> is_text d = true).
(** Before the first label, CHECK-NEXT, CHECK-SAME and CHECK-EMPTY come after another directive that has a place. *)
Definition started (ds : list dir) : Prop :=
  forall pre d post, ds = pre ++ d :: post -> relative (d_kind d) -> exists x, In x pre /\ File_Spec.places (d_kind x).
Definition complete (f : dfile) : Prop := started (df_prefix f) /\ (df_dirs f <> [] \/ o_imp o <> []).
End Exact.
