(** Specification of a whole check file: the directives before the first CHECK-LABEL, then each
    label with the directives below it. *)
From Verif Require Import Base Text_Model Text_Spec Cursor_Model Cursor_Spec Check_Model Program_Model Check_Spec.

Section FileSpec.
Context {L : lang}.

(** A check file cut at its labels. *)
Record file := mkFile { f_prefix : list (line L); f_blocks : list (pat L * list (line L)) }.
Definition file_lines (f : file) : list (line L) :=
  f_prefix f ++ flat_map (fun bl => mkLine KLabel (fst bl) :: snd bl) (f_blocks f).
Definition no_labels (ls : list (line L)) : Prop := forall l, In l ls -> l_kind l <> KLabel.
(** The directives are cut at the labels, and none is CHECK-COUNT-0. *)
Definition file_ok (f : file) : Prop :=
  no_labels (f_prefix f) /\ (forall bl, In bl (f_blocks f) -> no_labels (snd bl)) /\
  (forall l, In l (file_lines f) -> l_kind l <> KCount 0).
(** Every CHECK-NEXT, CHECK-SAME and CHECK-EMPTY before the first label comes after a CHECK,
    CHECK-COUNT or CHECK-DAG. *)
Definition relative (k : kind) : Prop := k = KNext \/ k = KSame \/ k = KEmpty.
Definition places (k : kind) : Prop := k = KPlain \/ k = KDag \/ exists n, k = KCount n.
Definition anchored (ls : list (line L)) : Prop :=
  forall pre l post, ls = pre ++ l :: post -> relative (l_kind l) -> exists x, In x pre /\ places (l_kind x).

(** the directive that --implicit-check-not stands for *)
Definition implied (imp : option (pat L)) : list (line L) := match imp with Some p => [mkLine KNot p] | None => [] end.
(** --implicit-check-not: at the start of each part, and after each positive directive of the
    first part; nothing more. *)
Definition with_implicit (imp : option (pat L)) (ls : list (line L)) : list (line L) :=
  implied imp ++
  flat_map (fun l => l :: match l_kind l with KNot => [] | _ => implied imp end) ls.

Variable b : bytes.
(** Where the labels are: each is searched from the end of the line of the previous one to the end
    of the input; they bind nothing. *)
Inductive labels_at (en : env L) : nat -> list (pat L) -> list minfo -> Prop :=
| La_nil from : labels_at en from [] []
| La_cons from p ps i is en' s :
    found b p from (length b) en i en' -> line_end b (rstart (i_span i)) s ->
    labels_at en s ps is -> labels_at en from (p :: ps) (i :: is).

(** The last line feed before a position. *)
Definition last_lf (pos n : nat) : Prop := last_in b LF 0 pos n.

(** The parts hold one after the other.  A part that starts at [start] ends at the line feed before
    the next label, or at the end of the input. *)
Inductive parts_hold : nat -> list (line L) -> list (list (line L)) -> list minfo -> env L -> list minfo -> env L -> Prop :=
| Ph_last start body en out en' :
    accepts b (length b) body [] false start (enter en) out en' ->
    parts_hold start body [] [] en out en'
| Ph_more start body en out en1 e i next s rest is out' en' :
    last_lf (rstart (i_span i)) e ->
    accepts b e body [] false start (enter en) out en1 ->
    line_end b (rstart (i_span i)) s ->
    parts_hold s next rest is en1 out' en' ->
    parts_hold start body (next :: rest) (i :: is) en (out ++ i :: out') en'.

(** The whole file holds of the input: the labels are found, and each part holds in its block. *)
Definition file_holds (imp : option (pat L)) (f : file) (en : env L) (out : list minfo) : Prop :=
  exists is en', labels_at en 0 (map fst (f_blocks f)) is /\
    let bodies := map (fun bl => implied imp ++ snd bl) (f_blocks f) in
    match with_implicit imp (f_prefix f), bodies, is with
    | [], first :: rest, i :: is' =>
        exists s out', line_end b (rstart (i_span i)) s /\ out = i :: out' /\
          parts_hold s first rest is' en out' en'
    | prefix, _, _ => parts_hold 0 prefix bodies is en out en'
    end.

(** A label pattern is sound if a failed search reports no location and a match starts with a byte
    other than a line feed. *)
Definition solid (p : pat L) : Prop := forall b s e en m en', s <= e <= length b ->
  pm p b (mkRange s e) en = Val (m, en') ->
  (m_is_ok m = false -> m_info m = None) /\
  (forall i, m_info m = Some i -> exists x, byte_at b (rstart (i_span i)) x /\ x <> LF).
(** The first label is not on the first line, or nothing comes before it. *)
Definition room (imp : option (pat L)) (f : file) (en : env L) : Prop :=
  with_implicit imp (f_prefix f) = [] \/
  forall p, head (map fst (f_blocks f)) = Some p -> forall i en', found b p 0 (length b) en i en' ->
    exists n, last_lf (rstart (i_span i)) n.
End FileSpec.
Arguments file L : clear implicits.

(** The first line of the input does not end in CR LF (such inputs are treated as CR LF files). *)
Definition lf_input (b : bytes) : Prop :=
  forall i, none_in b LF 0 i -> byte_at b i LF -> 0 < i -> ~ byte_at b (i - 1) CR.

(** Only CHECK-NEXT, CHECK-SAME, CHECK-EMPTY and CHECK-LABEL look at the ends of lines: files without
    labels and without those three work on any input. *)
Definition line_free {L} (ls : list (line L)) : Prop := forall l, In l ls -> ~ relative (l_kind l).
Definition readable {L} (b : bytes) (ls : list (line L)) : Prop := lf_input b \/ line_free ls.

(** The reported matches, cut at the labels: the matches of each part lie between the end of the
    line of its label (or the start of the input) and the line feed before the next label (or the
    end of the input). *)
Definition between (lo hi : nat) (out : list minfo) : Prop :=
  in_order lo out /\ forall i, In i out -> rend (i_span i) <= hi.
Inductive in_blocks (b : bytes) : nat -> list minfo -> list minfo -> Prop :=
| Ib_last start out : between start (length b) out -> in_blocks b start [] out
| Ib_more start out e i s is out' :
    between start e out -> last_in b LF 0 (rstart (i_span i)) e -> line_end b (rstart (i_span i)) s ->
    in_blocks b s is out' -> in_blocks b start (i :: is) (out ++ i :: out').
