(** What a lit test script means, written without reference to the parser's functions. *)
From Coq Require Import String.
From Verif Require Import Base Script_Model Num_Spec.
From Verif Require BoolExpr_Model BoolExpr_Spec.
Notation length := List.length.
Open Scope string_scope. Open Scope list_scope.

(** *** Lines *)
(** the lines of a text, each without its line feed; the last one may lack it *)
Inductive cut : str -> list str -> Prop :=
| cut_nil : cut [] []
| cut_line l r ls : ~ In 10%N l -> cut r ls -> cut (l ++ 10%N :: r) (l :: ls)
| cut_last l : l <> [] -> ~ In 10%N l -> cut l [l].
Definition terminated (text : str) : Prop := text = [] \/ exists t, text = t ++ [10%N].
(** without the carriage return before the line feed *)
Inductive bare : str -> str -> Prop :=
| bare_cr l : bare (l ++ [13%N]) l
| bare_not l : (forall t, l <> t ++ [13%N]) -> bare l l.
(** the lines of a text with their numbers, the first being 1 *)
Definition numbered (text : str) (nls : list (nat * str)) : Prop :=
  exists ls bs, cut text ls /\ Forall2 bare ls bs /\ nls = combine (seq 1 (length bs)) bs.

(** *** Keywords *)
Definition spelling (k : dkind) : str :=
  match k with
  | DRun => of_string "RUN:" | DDefine => of_string "DEFINE:" | DRedefine => of_string "REDEFINE:"
  | DUnsupported => of_string "UNSUPPORTED:" | DRequires => of_string "REQUIRES:" | DXfail => of_string "XFAIL:"
  | DRetries => of_string "ALLOWED_RETRIES:" | DEnd => of_string "END."
  end.
(** the first keyword of the line is [k], and [c] follows it *)
Definition says (l : str) (k : dkind) (c : str) : Prop :=
  exists pre, l = pre ++ spelling k ++ c /\
  forall k' pre' c', l = pre' ++ spelling k' ++ c' -> length pre <= length pre'.
Definition silent (l : str) : Prop := forall k pre c, l <> pre ++ spelling k ++ c.

(** *** White space *)
Definition blank (s : str) : Prop := Forall BoolExpr_Spec.white s.
Definition open_left (s : str) : Prop := forall c r, s = c :: r -> ~ BoolExpr_Spec.white c.
Definition open_right (s : str) : Prop := forall c r, s = r ++ [c] -> ~ BoolExpr_Spec.white c.
Definition ltrimmed (s t : str) : Prop := exists a, s = a ++ t /\ blank a /\ open_left t.
Definition rtrimmed (s t : str) : Prop := exists b, s = t ++ b /\ blank b /\ open_right t.
Definition trimmed (s t : str) : Prop := exists a b, s = a ++ t ++ b /\ blank a /\ blank b /\ open_left t /\ open_right t.

(** *** References to line numbers *)
(** [r] is a reference that stands for [v] on line [n] *)
Definition digits_are (ds : str) (v : Z) : Prop := ds <> [] /\ value_is 10 ds v.
Definition spaces (s : str) : Prop := Forall (eq 32%N) s.
Inductive reference (n : Z) : str -> Z -> Prop :=
| ref_here : reference n (of_string "%(line)") n
| ref_plus a b ds d : spaces a -> spaces b -> digits_are ds d -> (n + d < 2 ^ 64)%Z ->
    reference n (of_string "%(line" ++ a ++ of_string "+" ++ b ++ ds ++ of_string ")") (n + d)
| ref_minus a b ds d : spaces a -> spaces b -> digits_are ds d -> (d < 2 ^ 64)%Z ->
    reference n (of_string "%(line" ++ a ++ of_string "-" ++ b ++ ds ++ of_string ")") (Z.max 0 (n - d)).
(** it looks like a reference; [wide] are the digits of other scripts *)
Definition digit_char (wide : N -> bool) (c : N) : Prop := (48 <= c <= 57)%N \/ wide c = true.
Definition refers (wide : N -> bool) (r : str) : Prop :=
  r = of_string "%(line)" \/
  exists a sg b ds, r = of_string "%(line" ++ a ++ [sg] ++ b ++ ds ++ of_string ")" /\ spaces a /\ spaces b /\
    (sg = 43%N \/ sg = 45%N) /\ ds <> [] /\ Forall (digit_char wide) ds.
(** the decimal numeral of [v] *)
Definition numeral (v : Z) (s : str) : Prop := canonical s /\ value_is 10 s v.
(** [s] with its references resolved on line [n] *)
Inductive expands (wide : N -> bool) (n : nat) : str -> str -> Prop :=
| ex_nil : expands wide n [] []
| ex_ref r v t s u : reference (Z.of_nat n) r v -> numeral v t -> expands wide n s u -> expands wide n (r ++ s) (t ++ u)
| ex_char c s u : (forall r s', c :: s = r ++ s' -> ~ refers wide r) -> expands wide n s u -> expands wide n (c :: s) (c :: u).

(** *** Directives that may be continued *)
Definition continued (c s : str) : Prop := c = s ++ [92%N].
Definition ended (c : str) : Prop := forall s, c <> s ++ [92%N].
(** the lines after one that ended in a backslash: what they add, and the lines left over.  The end of
    the file also ends the directive. *)
Inductive more (wide : N -> bool) (k : dkind) (strip : str -> str -> Prop) (strip_end : str -> str -> Prop) (sep : str)
  : list (nat * str) -> list (nat * str) -> str -> Prop :=
| more_eof : more wide k strip strip_end sep [] [] []
| more_line n l c s x t ls rest u : says l k c -> continued c s -> strip s x -> expands wide n x t ->
    more wide k strip strip_end sep ls rest u -> more wide k strip strip_end sep ((n, l) :: ls) rest (sep ++ t ++ u)
| more_last n l c x t ls : says l k c -> ended c -> strip_end c x -> expands wide n x t ->
    more wide k strip strip_end sep ((n, l) :: ls) ls (sep ++ t).
(** RUN keeps the layout of its lines, DEFINE and REDEFINE join their words *)
Definition run_more wide := more wide DRun eq rtrimmed [92; 10]%N.
Definition define_more wide k := more wide k trimmed trimmed (of_string " ").
(** a whole directive, [c] following the keyword on line [n] *)
Inductive whole (wide : N -> bool) (mr : list (nat * str) -> list (nat * str) -> str -> Prop) (n : nat) (c : str) (ls : list (nat * str))
  : list (nat * str) -> str -> Prop :=
| whole_one x t : ended c -> trimmed c x -> expands wide n x t -> whole wide mr n c ls ls t
| whole_more s x t rest u : continued c s -> ltrimmed s x -> expands wide n x t -> mr ls rest u ->
    whole wide mr n c ls rest (t ++ u).

(** *** Scripts *)
Inductive item :=
| IRun (line : nat) (text : str)
| ISubst (line : nat) (key value : str) (replace : bool)
| IExprs (k : dkind) (es : list BoolExpr_Model.expr)
| IRetries (v : N).
(** [%{name}] *)
Definition key_name (k : str) : Prop :=
  exists c m, k = of_string "%{" ++ c :: m ++ of_string "}" /\
    (c = 95 \/ 97 <= c <= 122 \/ 65 <= c <= 90)%N /\
    Forall (fun c => c = 45 \/ c = 95 \/ c = 58 \/ 48 <= c <= 57 \/ 97 <= c <= 122 \/ 65 <= c <= 90)%N m.
(** a feature expression, or [*] *)
Definition expr_of (valid : str -> bool) (s : str) (e : BoolExpr_Model.expr) : Prop :=
  exists t, trimmed s t /\
  (t = of_string "*" /\ e = BoolExpr_Model.Lit true \/ t <> of_string "*" /\ BoolExpr_Model.parse valid t = BoolExpr_Model.Ok e).
Definition exprs_of (valid : str -> bool) (c : str) (es : list BoolExpr_Model.expr) : Prop :=
  exists parts, parts <> [] /\ c = join (of_string ",") parts /\ (forall p, In p parts -> ~ In 44%N p) /\ Forall2 (expr_of valid) parts es.
Definition retries_of (c : str) (v : N) : Prop :=
  exists t ds, trimmed c t /\ (t = ds \/ t = of_string "+" ++ ds) /\ digits_are ds (Z.of_N v) /\ (v < 2 ^ 64)%N.
(** the script written on the lines, none of its directives being refused *)
Inductive means (wide : N -> bool) (valid : str -> bool) : list (nat * str) -> list item -> Prop :=
| m_nil : means wide valid [] []
| m_silent n l ls is : silent l -> means wide valid ls is -> means wide valid ((n, l) :: ls) is
| m_stop n l c ls : says l DEnd c -> blank c -> means wide valid ((n, l) :: ls) []
| m_end n l c ls is : says l DEnd c -> ~ blank c -> means wide valid ls is -> means wide valid ((n, l) :: ls) is
| m_run n l c ls rest t is : says l DRun c -> whole wide (run_more wide) n c ls rest t ->
    means wide valid rest is -> means wide valid ((n, l) :: ls) (IRun n t :: is)
| m_subst n l k c ls rest a b key value is : k = DDefine \/ k = DRedefine -> says l k c ->
    whole wide (define_more wide k) n c ls rest (a ++ of_string "=" ++ b) -> ~ In 61%N a ->
    trimmed a key -> key_name key -> trimmed b value ->
    means wide valid rest is -> means wide valid ((n, l) :: ls) (ISubst n key value (match k with DRedefine => true | _ => false end) :: is)
| m_no_equals n l k c ls rest t is : k = DDefine \/ k = DRedefine -> says l k c ->
    whole wide (define_more wide k) n c ls rest t -> ~ In 61%N t ->
    means wide valid rest is -> means wide valid ((n, l) :: ls) is
| m_exprs n l k c ls es is : k = DRequires \/ k = DUnsupported \/ k = DXfail -> says l k c -> exprs_of valid c es ->
    means wide valid ls is -> means wide valid ((n, l) :: ls) (IExprs k es :: is)
| m_retries n l c ls v is : says l DRetries c -> retries_of c v ->
    means wide valid ls is -> means wide valid ((n, l) :: ls) (IRetries v :: is).
(** the script these items make up: at least one command to run, at most one number of retries *)
Definition command_of (i : item) : list command :=
  match i with IRun n t => [Run n t] | ISubst n k v b => [Subst n k v b] | _ => [] end.
Definition exprs_of_kind (k : dkind) (i : item) : list BoolExpr_Model.expr :=
  match i with
  | IExprs k' es => match k, k' with DRequires, DRequires | DUnsupported, DUnsupported | DXfail, DXfail => es | _, _ => [] end
  | _ => []
  end.
Definition retries_in (is : list item) : list N := flat_map (fun i => match i with IRetries v => [v] | _ => [] end) is.
Definition makes (is : list item) (sc : script) : Prop :=
  s_commands sc = flat_map command_of is /\
  s_requires sc = flat_map (exprs_of_kind DRequires) is /\
  s_unsupported sc = flat_map (exprs_of_kind DUnsupported) is /\
  s_xfails sc = flat_map (exprs_of_kind DXfail) is /\
  (exists n t, In (IRun n t) is) /\
  (retries_in is = [] /\ s_retries sc = None \/ exists v, retries_in is = [v] /\ s_retries sc = Some v).
