(** What a check file asks of the input, said on its directives as they are read: with texts, regular expressions,
    variables and numbers. *)
From Coq Require Import String Permutation Sorted.
From Verif Require Import Base Text_Model Text_Spec Cursor_Model Cursor_Spec Check_Model Program_Model Check_Spec File_Spec Lit_Model Lit_Spec Env_Model Num_Model Gram_Model Parse_Model Parse_Spec
  Pat_Spec Regex_Model Smart_Model Smart_Spec Smart_Static Chain_Spec PatSet_Model PatSet_Spec Choice_Spec Sweep_Spec Whole_Model Whole_Spec.
Open Scope string_scope.
Open Scope list_scope.
Open Scope nat_scope.
Notation last_end := Check_Spec.last_end.

(** A directive: whether it is marked {LITERAL}, its pattern, where the pattern begins and on which line *)
Record dir := mkDir { d_kind : kind; d_literal : bool; d_pat : cpat; d_at : nat; d_line : Z }.
(** the directives whose pattern is searched for by itself *)
Definition searched (d : dir) : Prop := match d_kind d with KPlain | KCount _ | KNext | KSame => True | _ => False end.
(** The directives of a check file; [n]: the number of the first one *)
Fixpoint dirs (pos : nat -> nat * Z) (n : nat) (cs : list cline) : list dir :=
  match cs with
  | [] => []
  | c :: r => mkDir (directive (cl_kind c)) (cl_literal c) (cl_pat c) (fst (pos n)) (snd (pos n)) :: dirs pos (S n) r
  end.
(** ... cut at its labels *)
Record dfile := mkDFile { df_prefix : list dir; df_blocks : list (dir * list dir) }.
Definition df_dirs (f : dfile) : list dir := df_prefix f ++ flat_map (fun bl => fst bl :: snd bl) (df_blocks f).
Definition cut_at_labels (f : dfile) : Prop :=
  (forall d, In d (df_prefix f) -> d_kind d <> KLabel) /\
  (forall bl, In bl (df_blocks f) -> d_kind (fst bl) = KLabel /\ forall d, In d (snd bl) -> d_kind d <> KLabel).
(** the values of the variables *)
Notation vars := Smart_Model.env.
Definition dir_pat (d : dir) : spat := mkPat (d_at d) (d_line d) (d_pat d).

Section Demand.
Context (o : options).
Notation ci := (o_ci o).
Notation strict := (o_strict o).
(** the text of a pattern that is one: tabs count as spaces unless --strict-whitespace is given *)
Definition text_of (d : dir) : str := as_seen strict (flat_map literal_of (parts_of (d_pat d))).
Definition is_text (d : dir) : bool := only_text (d_pat d).
(** one of the regular expressions of --implicit-check-not: (a)|(b)|... *)
Fixpoint one_of (l : list str) : str :=
  match l with
  | [] => []
  | s :: [] => of_string "(" ++ s ++ of_string ")"
  | s :: r => of_string "(" ++ s ++ of_string ")|" ++ one_of r
  end.
(** the directive that --implicit-check-not stands for, and where it is put *)
Definition implied_dirs : list dir := match o_imp o with [] => [] | l => [mkDir KNot false (PRegex (one_of l)) 0 1] end.
Definition with_implied (ds : list dir) : list dir :=
  implied_dirs ++ flat_map (fun d => d :: match d_kind d with KNot => [] | _ => implied_dirs end) ds.

Section Input.
Context (b : bytes).
(** ** Single patterns *)
(** The pattern of [d] is found in the range from [s] to [e].
    - A text: the first place where it stands.
    - A pattern without substitutions: the first place where a text stands that is made of one piece for each part, and the
      preferred one of those texts; the variables are defined from what their pieces are.
    - A pattern with substitutions: a text that is linked for the parts. *)
Inductive finds (d : dir) (s e : nat) (E : vars) : minfo -> vars -> Prop :=
| fi_text t i : d_pat d = PLit t -> e <= length b -> s <= i -> i + length (as_seen strict t) <= e -> text_at ci b (as_seen strict t) i ->
    (forall k, s <= k < i -> ~ text_at ci b (as_seen strict t) k) ->
    finds d s e E (mkInfo (mkRange i (i + length (as_seen strict t))) 0 (d_at d)) E
| fi_pieces i j cs vs : is_text d = false -> existsb is_dynamic (parts_of (d_pat d)) = false -> s <= e <= length b ->
    first_pieces ci b (parts_of (d_pat d)) s e i j cs -> preferred ci b e (parts_of (d_pat d)) i j cs -> values_for cs vs ->
    finds d s e E (mkInfo (mkRange i j) 0 (d_at d)) (defined E vs)
| fi_linked i j F E' : existsb is_dynamic (parts_of (d_pat d)) = true -> s <= i -> i <= j -> j <= e -> e <= length b ->
    linked ci b e (d_line d) (parts_of (d_pat d)) E i j F -> same_vars F E' ->
    finds d s e E (mkInfo (mkRange i j) 0 (d_at d)) E'.
(** ** Neighbouring CHECK-NOT directives: nothing they forbid stands in the range.  (A text among patterns is taken as it is
    written.) *)
Definition avoids (ds : list dir) (s e : nat) : Prop :=
  ds = [] \/ s <= e <= length b /\
  if forallb is_text ds
  then forall d i, In d ds -> ~ (s <= i /\ i + length (text_of d) <= e /\ text_at ci b (text_of d) i)
  else forall d i j cs, In d ds -> s <= i -> ~ matches_at ci b e (d_pat d) i j cs.
(** ** Neighbouring CHECK-DAG directives: texts, that one sweep over the range sees (--ignore-case has no effect on them); or
    one other pattern, of which the match that ends first is taken. *)
Definition text_entries (ds : list dir) : list (str * nat) := map (fun d => (text_of d, d_at d)) ds.
Inductive gathers (ds : list dir) (s e : nat) (E : vars) : list minfo -> vars -> Prop :=
| ga_texts is : forallb is_text ds = true -> s <= e <= length b -> swept b (text_entries ds) e s [] is -> gathers ds s e E is E
| ga_one d i j cs vs : ds = [d] -> is_text d = false -> e <= length b -> s <= i -> matches_at ci b e (d_pat d) i j cs ->
    (forall i' j' cs', s <= i' -> matches_at ci b e (d_pat d) i' j' cs' -> j <= j') -> values_for cs vs ->
    gathers ds s e E [mkInfo (mkRange i j) 0 (d_at d)] (defined E vs).

(** In what follows, [F d s e E i E'] says that the pattern of [d] is found at [i] in the range from [s] to [e]: see [finds]. *)
Section Found.
Context (F : dir -> nat -> nat -> vars -> minfo -> vars -> Prop).
(** ** One directive, from [pos] on, in a block that ends at [stop]: its matches *)
Inductive meets (stop : nat) (d : dir) : kind -> nat -> vars -> list minfo -> vars -> Prop :=
| me_plain pos E i E' : F d pos stop E i E' -> meets stop d KPlain pos E [i] E'
| me_next pos E nl e i E' : line_end b pos nl -> byte_at b nl LF -> nl + 1 < stop -> line_end b (nl + 1) e ->
    F d (nl + 1) e E i E' -> meets stop d KNext pos E [i] E'
| me_same pos E e i E' : line_end b pos e -> F d pos e E i E' -> rstart (i_span i) < e -> meets stop d KSame pos E [i] E'
| me_empty pos E : byte_at b pos LF -> line_end b (pos + 1) (pos + 1) ->
    meets stop d KEmpty pos E [mkInfo (mkRange (pos + 1) (pos + 1)) 0 0] E
| me_empty_eof E : meets stop d KEmpty (length b) E [mkInfo (mkRange (length b) (length b)) 0 0] E
| me_count_1 pos E i E' : F d pos stop E i E' -> meets stop d (KCount 1) pos E [i] E'
| me_count_S n pos E i E' is E'' : F d pos stop E i E' -> meets stop d (KCount (S n)) (rend (i_span i)) E' is E'' ->
    meets stop d (KCount (S (S n))) pos E (i :: is) E''.
Definition touches (ds : list dir) : Prop :=
  match ds with d :: _ => match d_kind d with KPlain | KCount _ => True | _ => False end | [] => False end.
(** ** The directives of a part: they are met one after the other.  [nots]: the CHECK-NOT directives since the last match;
    [gap]: CHECK and CHECK-COUNT directly after CHECK-DAG must leave a gap. *)
Inductive met (stop : nat) : list dir -> list dir -> bool -> nat -> vars -> list minfo -> vars -> Prop :=
| mt_end nots gap pos E : avoids nots pos stop -> met stop [] nots gap pos E [] E
| mt_not d ds nots gap pos E out E' : d_kind d = KNot -> met stop ds (nots ++ [d]) gap pos E out E' -> met stop (d :: ds) nots gap pos E out E'
| mt_one d ds nots gap pos E is E1 out E' : meets stop d (d_kind d) pos E is E1 -> avoids nots pos (first_start is) ->
    (gap = true -> pos < first_start is) -> met stop ds [] false (last_end pos is) E1 out E' ->
    met stop (d :: ds) nots gap pos E (is ++ out) E'
| mt_group gs ds nots gap pos E is E1 out E' : gs <> [] -> Forall (fun d => d_kind d = KDag) gs ->
    (forall d r, ds = d :: r -> d_kind d <> KDag) -> gathers gs pos stop E is E1 -> avoids nots pos (first_start is) ->
    forall gap', (gap' = true <-> touches ds) -> met stop ds [] gap' (last_end pos is) E1 out E' ->
    met stop (gs ++ ds) nots gap pos E (is ++ out) E'.
(** ** The labels: each is searched from the end of the line of the previous one *)
Inductive labels_found (E : vars) : nat -> list dir -> list minfo -> Prop :=
| lf_nil from : labels_found E from [] []
| lf_cons from d ds i is E' s : F d from (length b) E i E' -> line_end b (rstart (i_span i)) s -> labels_found E s ds is ->
    labels_found E from (d :: ds) (i :: is).
(** ** The parts: each ends at the line feed before the next label, or at the end of the input.  --enable-var-scope: local
    variables are forgotten at the start of a part. *)
Definition entered (E : vars) : vars := if o_scoped o then b_clear E else E.
Inductive parts_met : nat -> list dir -> list (list dir) -> list minfo -> vars -> list minfo -> vars -> Prop :=
| pm_last start ds E out E' : met (length b) ds [] false start (entered E) out E' -> parts_met start ds [] [] E out E'
| pm_more start ds E out E1 stop i next s rest is out' E' : last_lf b (rstart (i_span i)) stop ->
    met stop ds [] false start (entered E) out E1 -> line_end b (rstart (i_span i)) s -> parts_met s next rest is E1 out' E' ->
    parts_met start ds (next :: rest) (i :: is) E (out ++ i :: out') E'.
Definition satisfied (f : dfile) (E : vars) (out : list minfo) : Prop :=
  exists is E', labels_found E 0 (map fst (df_blocks f)) is /\
    let parts := map (fun bl => implied_dirs ++ snd bl) (df_blocks f) in
    match with_implied (df_prefix f), parts, is with
    | [], first :: rest, i :: is' => exists s out', line_end b (rstart (i_span i)) s /\ out = i :: out' /\ parts_met s first rest is' E out' E'
    | prefix, _, _ => parts_met 0 prefix parts is E out E'
    end.
End Found.
End Input.

(** ** The check files for which this is what is asked *)
(** A pattern to be searched for: a text that is not blank (or is marked {LITERAL}), a regular expression, or parts; if none
    is a substitution, then no name is used twice. *)
Inductive searchable (d : dir) : Prop :=
| se_text t : d_pat d = PLit t -> t <> [] -> d_literal d = true \/ ~ blank t -> searchable d
| se_regex s x : d_pat d = PRegex s -> d_literal d = false -> build ci s = Some x -> searchable d
| se_static l : d_pat d = PParts l -> d_literal d = false -> Forall (static ci) l -> forallb is_literal l = false -> NoDup (flat_map part_names l) -> searchable d
| se_linked l : d_pat d = PParts l -> d_literal d = false -> existsb is_dynamic l = true -> Forall (compilable ci strict) l -> searchable d.
(** A label: without variables, and no match of it begins with a line feed. *)
Inductive labelled_by (d : dir) : Prop :=
| lb_text t c r : d_pat d = PLit t -> as_seen strict t = c :: r -> c <> LF -> labelled_by d
| lb_regex s x : d_pat d = PRegex s -> build ci s = Some x ->
    (forall b e i j cs, i <= e -> e <= length b -> pieces ci b e [QRegex s] i j cs -> exists c, byte_at b i c /\ c <> LF) -> labelled_by d
| lb_static l : d_pat d = PParts l -> Forall (static ci) l -> forallb is_literal l = false -> NoDup (flat_map part_names l) -> flat_map part_caps l = [] ->
    (forall b e i j cs, i <= e -> e <= length b -> pieces ci b e l i j cs -> exists c, byte_at b i c /\ c <> LF) -> labelled_by d.
Definition each_run (k : kind) (P : list dir -> Prop) (ds : list dir) : Prop :=
  forall pre run post, ds = pre ++ run ++ post -> Forall (fun d => d_kind d = k) run -> run <> [] -> P run.
Section Automata.
Context (T : set_engine).
(** Neighbouring CHECK-NOT directives: different patterns without substitutions or definitions, that the automata accept
    together *)
Definition forbids (ds : list dir) : Prop :=
  Forall (fun d => fixed ci (d_pat d) /\ flat_map part_caps (parts_of (d_pat d)) = []) ds /\ NoDup (map (fun d => written (d_pat d)) ds) /\
  (forallb is_text ds = false -> rs_build T ci (map (fun d => flat_map part_text (parts_of (d_pat d))) ds) <> None).
(** Neighbouring CHECK-DAG directives: different texts, or one pattern without substitutions *)
Definition orders (ds : list dir) : Prop :=
  Forall (fun d => fixed ci (d_pat d)) ds /\
  (forallb is_text ds = true /\ NoDup (map text_of ds) \/
   exists d, ds = [d] /\ is_text d = false /\ rs_build T ci [flat_map part_text (parts_of (d_pat d))] <> None).
Definition part_ok (ds : list dir) : Prop :=
  (forall d, In d ds -> match d_kind d with KPlain | KCount _ | KNext | KSame => searchable d | _ => True end) /\
  each_run KNot forbids ds /\ each_run KDag orders ds.
Definition checkable (f : dfile) : Prop :=
  cut_at_labels f /\ (forall d, In d (df_dirs f) -> d_kind d <> KCount 0) /\ part_ok (with_implied (df_prefix f)) /\
  forall bl, In bl (df_blocks f) -> labelled_by (fst bl) /\ part_ok (implied_dirs ++ snd bl).
End Automata.
(** The input: lines end with a line feed, unless neither lines nor labels matter; the first label is not on the first line,
    or nothing is asked before it. *)
Definition suits (b : bytes) (f : dfile) : Prop :=
  (lf_input b \/ df_blocks f = [] /\ forall d, In d (df_prefix f) -> ~ relative (d_kind d)) /\
  (with_implied (df_prefix f) = [] \/
   forall bl rest i E', df_blocks f = bl :: rest -> finds b (fst bl) 0 (length b) (env_from_config (o_defs o)) i E' -> exists n, last_lf b (rstart (i_span i)) n).
End Demand.
(** The matches that are reported: those of the directives, in the order of the check file *)
Definition listed (out0 out : list minfo) : Prop := Permutation out0 out /\ StronglySorted (fun i j => i_pspan i <= i_pspan j) out.
