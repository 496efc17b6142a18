(** What a pattern means: a text that is made of one piece for every part. *)
From Coq Require Import String.
From Verif Require Import Base Text_Model Cursor_Model Check_Model Lit_Model Lit_Spec Env_Model Num_Model Gram_Model Parse_Model Regex_Model Regex_Spec Smart_Model.
Open Scope list_scope.
Notation length := List.length.

(** the text from [i] to [j] *)
Definition between (b : bytes) (i j : nat) : str := firstn (j - i) (skipn i b).
Definition format_of (f : option format) : format := match f with Some f => f | None => default_format end.

Section Pieces.
Context (ci : bool) (b : bytes) (e : nat).
(** [piece q i j cs]: the text from [i] to [j], which does not go beyond [e], is one for the part [q]; [cs]
    lists the variable that the part defines, if any, with the text it captures.  A letter stands for
    itself, or for either case if case is ignored. *)
Inductive piece : part -> nat -> nat -> list (capt * str) -> Prop :=
| pc_lit t i : i + length t <= e -> text_at ci b t i -> piece (QLit t) i (i + length t) []
| pc_regex s x i j : build ci s = Some x -> lang ci b e (x_re x) i j -> piece (QRegex s) i j []
| pc_def v s x i j : build ci s = Some x -> lang ci b e (x_re x) i j ->
    piece (QMatch (MSubst v (Some s))) i j [(mkCapt v TyStr, between b i j)]
| pc_num f i j t : i <= j -> j <= e -> in_lang (format_lang (format_of f)) t -> Forall2 (alike ci) t (between b i j) ->
    piece (QMatch (MNumeric f None None)) i j []
| pc_num_def f v i j t : i <= j -> j <= e -> in_lang (format_lang (format_of f)) t -> Forall2 (alike ci) t (between b i j) ->
    piece (QMatch (MNumeric f (Some v) None)) i j [(mkCapt v (TyNum f), between b i j)].
(** ... one piece after the other *)
Inductive pieces : list part -> nat -> nat -> list (capt * str) -> Prop :=
| pcs_nil i : pieces [] i i []
| pcs_cons q l i k j cs ds : piece q i k cs -> pieces l k j ds -> pieces (q :: l) i j (cs ++ ds).
End Pieces.

(** The value of a variable that captured [t]: the text, or the number it denotes, if it is one. *)
Inductive value_for : vtype -> str -> value -> Prop :=
| vf_str t : value_for TyStr t (VStr t)
| vf_num f t z : parse_with_format t (format_of f) = POk z -> value_for (TyNum f) t (VNum (ENum (mkNum (Some (format_of f)) z))).
Definition values_for (cs : list (capt * str)) (vs : list (vname * value)) : Prop :=
  Forall2 (fun c v => fst v = k_name (fst c) /\ value_for (k_ty (fst c)) (snd c) (snd v)) cs vs.
Definition defined (e : @bindings value) (vs : list (vname * value)) : @bindings value :=
  fold_left (fun e v => b_insert e (fst v) (snd v)) vs e.

(** A name as the parser of check files yields it. *)
Definition identifier (s : str) : Prop :=
  match s with c :: r => is_letter c = true /\ forallb (fun c => is_letter c || is_digit c)%bool r = true | [] => False end.
(** A part that does not depend on the variables and can be compiled.  A regular expression outside of a
    definition must not be an alternation (see alternation_refuted). *)
Inductive static (ci : bool) : part -> Prop :=
| st_lit t : static ci (QLit t)
| st_regex s x : build ci s = Some x -> (forall a b, x_re x <> RAlt a b) -> static ci (QRegex s)
| st_def v s x : build ci s = Some x -> identifier (v_text v) -> static ci (QMatch (MSubst v (Some s)))
| st_num f : compiles (format_lang (format_of f)) -> static ci (QMatch (MNumeric f None None))
| st_num_def f v : compiles (format_lang (format_of f)) -> identifier (v_text v) -> static ci (QMatch (MNumeric f (Some v) None)).
(** the names of the groups of a part: the variable it defines, and those inside a regular expression *)
Definition regex_names (s : str) : list str := match build false s with Some x => some_names (x_names x) | None => [] end.
Definition part_names (q : part) : list str :=
  match q with
  | QRegex s => regex_names s
  | QMatch (MSubst v (Some s)) => v_text v :: regex_names s
  | QMatch (MNumeric _ (Some v) None) => [v_text v]
  | _ => []
  end.
Definition is_literal (q : part) : bool := match q with QLit _ => true | _ => false end.
(** What a search of the range from [s] to [e] may return: the leftmost text made of pieces, with the
    variables defined; or no match, if there is no such text; or an error, if a captured text is not a
    number that can be represented.  In the last two cases no variable changes. *)
Definition first_pieces (ci : bool) (b : bytes) (l : list part) (s e i j : nat) (cs : list (capt * str)) : Prop :=
  s <= i /\ i <= e /\ pieces ci b e l i j cs /\ forall k j' cs', s <= k < i -> ~ pieces ci b e l k j' cs'.
Inductive outcome (ci : bool) (b : bytes) (l : list part) (s e at_ : nat) (env0 : @bindings value) : mresult * @bindings value -> Prop :=
| oc_none : (forall i j cs, s <= i <= e -> ~ pieces ci b e l i j cs) -> outcome ci b l s e at_ env0 (failed ENone, env0)
| oc_found i j cs vs : first_pieces ci b l s e i j cs -> values_for cs vs ->
    outcome ci b l s e at_ env0 (mkRes Good (Some (mkInfo (mkRange i j) 0 at_)), defined env0 vs)
| oc_bad i j cs : first_pieces ci b l s e i j cs -> ~ (exists vs, values_for cs vs) -> outcome ci b l s e at_ env0 (failed (EMatch true), env0).
