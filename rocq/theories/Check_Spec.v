(** Specification of checking: what it means for the directives of a check file to hold of an
    input, said directly on the list of directives. *)
From Verif Require Import Base Text_Model Text_Spec Cursor_Model Cursor_Spec Check_Model Program_Model.

(** What a pattern language must guarantee about its matchers.
    - A match lies inside the searched range and carries its location.
    - A failure carries a label in the check file; no search aborts or errs.
    - A set of forbidden patterns binds nothing, and its verdict does not depend on the bindings;
      an accepted result carries its location.
    - A CHECK-DAG group that succeeds reports at least one match, in input order, all inside the
      range, and moves the cursor to the end of the last one. *)
Definition good_info (r : range) (m : mresult) : Prop :=
  m_ty m = Good /\ exists i, m_info m = Some i /\ rstart r <= rstart (i_span i) <= rend (i_span i) /\ rend (i_span i) <= rend r.
(** Locations in input order: each starts where the previous one ended, or later. *)
Fixpoint in_order (pos : nat) (is : list minfo) : Prop :=
  match is with
  | [] => True
  | i :: r => pos <= rstart (i_span i) <= rend (i_span i) /\ in_order (rend (i_span i)) r
  end.
Fixpoint last_end (pos : nat) (is : list minfo) : nat :=
  match is with [] => pos | i :: r => last_end (rend (i_span i)) r end.
Fixpoint infos (ms : matches) : list minfo :=
  match ms with [] => [] | m :: r => match m_info m with Some i => i :: infos r | None => infos r end end.

Record lang_ok (L : lang) : Prop := {
  ok_pm : forall (p : pat L) b s e en, s <= e <= length b ->
    exists m en', pm p b (mkRange s e) en = Val (m, en') /\
      (good_info (mkRange s e) m \/
       exists er, m_ty m = Failed er /\ labelled er = true);
  ok_nm : forall (ps : list (pat L)) b s e en, s <= e <= length b ->
    exists m, nm ps b (mkRange s e) en = Val (m, en) /\ (m_is_ok m = true -> good_info (mkRange s e) m);
  ok_nm_static : forall (ps : list (pat L)) b s e en1 en2 m1 m2, s <= e <= length b ->
    nm ps b (mkRange s e) en1 = Val (m1, en1) -> nm ps b (mkRange s e) en2 = Val (m2, en2) -> m_is_ok m1 = m_is_ok m2;
  ok_dm : forall (ps : list (pat L)) b s e en, s <= e <= length b -> ps <> [] ->
    exists ms en' pos, dm ps b (mkRange s e) en = Val (ms, en', pos) /\
      (ms_ok ms = true ->
         ms <> [] /\ Forall (good_info (mkRange s e)) ms /\ in_order s (infos ms) /\
         pos = Some (last_end s (infos ms)))
}.

Section Spec.
Context {L : lang}.
Variable b : bytes.      (* the input *)
Variable blk_end : nat.  (* where the block ends *)

(** The pattern is found in the range from [s] to [e] at [i]. *)
Definition found (p : pat L) (s e : nat) (en : env L) (i : minfo) (en' : env L) : Prop :=
  exists m, pm p b (mkRange s e) en = Val (m, en') /\ m_ty m = Good /\ m_info m = Some i.
(** None of the patterns is found in the range. *)
Definition absent (ps : list (pat L)) (s e : nat) (en : env L) : Prop :=
  ps = [] \/ exists m en', nm ps b (mkRange s e) en = Val (m, en') /\ m_is_ok m = false.

(** One positive directive other than CHECK-DAG, with the cursor at [pos]: where it matches. *)
Inductive fires : kind -> pat L -> nat -> env L -> list minfo -> env L -> Prop :=
| F_plain p pos en i en' :
    found p pos blk_end en i en' -> fires KPlain p pos en [i] en'
| F_next p pos en nl e i en' :
    line_end b pos nl -> byte_at b nl LF -> nl + 1 < blk_end -> line_end b (nl + 1) e ->
    found p (nl + 1) e en i en' -> fires KNext p pos en [i] en'
| F_same p pos en e i en' :
    line_end b pos e -> found p pos e en i en' -> rstart (i_span i) < e -> fires KSame p pos en [i] en'
| F_empty p pos en :
    (* the next line is empty *)
    byte_at b pos LF -> line_end b (pos + 1) (pos + 1) ->
    fires KEmpty p pos en [mkInfo (mkRange (pos + 1) (pos + 1)) 0 0] en
| F_empty_eof p en :
    (* the end of the input counts as an empty line, every time it is asked *)
    fires KEmpty p (length b) en [mkInfo (mkRange (length b) (length b)) 0 0] en
| F_count_1 p pos en i en' : found p pos blk_end en i en' -> fires (KCount 1) p pos en [i] en'
| F_count_S p n pos en i en' is en'' :
    found p pos blk_end en i en' -> fires (KCount (S n)) p (rend (i_span i)) en' is en'' ->
    fires (KCount (S (S n))) p pos en (i :: is) en''.

Definition head_kind (ls : list (line L)) : option kind := match ls with [] => None | l :: _ => Some (l_kind l) end.
(** CHECK and CHECK-COUNT directly after CHECK-DAG: their match must not even touch the group's *)
Definition touchy (ls : list (line L)) : Prop :=
  match head_kind ls with Some KPlain | Some (KCount _) => True | _ => False end.
Definition first_start (is : list minfo) : nat := match is with [] => 0 | i :: _ => rstart (i_span i) end.

(** The directives hold from [pos] to the end of the block.  [nots] are the CHECK-NOT patterns seen
    since the last match; [strict] says that the next match must leave a gap. *)
Inductive accepts : list (line L) -> list (pat L) -> bool -> nat -> env L -> list minfo -> env L -> Prop :=
| A_end nots strict pos en :
    absent nots pos blk_end en -> accepts [] nots strict pos en [] en
| A_not p ls nots strict pos en out en' :
    accepts ls (nots ++ [p]) strict pos en out en' ->
    accepts (mkLine KNot p :: ls) nots strict pos en out en'
| A_pos k p ls nots strict pos en is en1 out en' :
    fires k p pos en is en1 ->
    absent nots pos (first_start is) en1 ->
    (strict = true -> pos < first_start is) ->
    accepts ls [] false (last_end pos is) en1 out en' ->
    accepts (mkLine k p :: ls) nots strict pos en (is ++ out) en'
| A_dag ds ls nots strict pos en ms en1 stop out en' :
    ds <> [] -> head_kind ls <> Some KDag ->
    dm ds b (mkRange pos blk_end) en = Val (ms, en1, stop) -> ms_ok ms = true ->
    absent nots pos (first_start (infos ms)) en1 ->
    forall touch, (touch = true <-> touchy ls) ->
    accepts ls [] touch (last_end pos (infos ms)) en1 out en' ->
    accepts (map (mkLine KDag) ds ++ ls) nots strict pos en (infos ms ++ out) en'.

End Spec.
