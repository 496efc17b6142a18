(** How a pattern with substitutions is searched for (C83).  Its pieces are matched one after the other, each for itself: a piece
    takes the text it prefers, whatever the pieces after it need. *)
From Coq Require Import String.
From Verif Require Import Base Text_Model Cursor_Model Check_Model Lit_Model Lit_Spec Env_Model Num_Model Num_Spec Gram_Model Sum_Spec Parse_Model Regex_Model Smart_Model Smart_Spec Chain_Spec Choice_Spec.
Open Scope list_scope.
Open Scope nat_scope.
Notation length := List.length.

(** A pattern is cut at its substitutions and at its definitions of numbers with a constraint, [[#N: X+1]]. *)
Inductive seg := Fixed (r : list part) | Shown (f : option format) (x : pexpr) | Given (f : option format) (v : vname) (x : pexpr).
Definition is_given (g : seg) : bool := match g with Given _ _ _ => true | _ => false end.
Section Cut.
Context (ci strict : bool).
Definition uncased (f : format) : Prop := match f with Hex _ _ k => k = Any | _ => True end.
(** texts, regular expressions, numbers and definitions; if case is ignored, no number that is defined asks for a case *)
Definition fixed_run (r : list part) : Prop :=
  r <> [] /\ Forall (static ci) r /\ (forall f v, In (QMatch (MNumeric f (Some v) None)) r -> ci = true -> uncased (format_of f)) /\ NoDup (flat_map part_names r) /\
  (forall t, In (QLit t) r -> plain_literal strict t) /\ (forall s, In (QRegex s) r -> s <> []).
Inductive cut_parts : list part -> list seg -> Prop :=
| ct_nil : cut_parts [] []
| ct_sub q f x l gs : substitution q f x -> cut_parts l gs -> cut_parts (q :: l) (Shown f x :: gs)
| ct_given f v x l gs : compiles (format_lang (format_of f)) -> identifier (v_text v) -> cut_parts l gs ->
    cut_parts (QMatch (MNumeric f (Some v) (Some x)) :: l) (Given f v x :: gs)
| ct_run r l gs : fixed_run r -> (l = [] \/ exists q l', l = q :: l' /\ is_dynamic q = true) -> cut_parts l gs -> cut_parts (r ++ l) (Fixed r :: gs).
End Cut.

(** The value of an expression over the variables: none of the values on the way is too large, and variables and operations are
    not nested deeper than [n]. *)
Definition may_overflow (op : binop) : bool := match op with OAdd | Num_Model.OSub | OMul | ODiv => true | _ => false end.
Section Values.
Context (env : str -> option value).
Inductive valued : nat -> nexpr -> Z -> Prop :=
| va_num n k : valued (S n) (ENum k) (nvalue k)
| va_line n l : valued (S n) (ELine l) l
| va_var n x d z : env x = Some (VNum d) -> valued n d z -> valued (S n) (EVar x) z
| va_bin n op a c x y z : valued n a x -> valued n c y -> op_means op x y z -> (may_overflow op = true -> is_i128 z) -> valued (S n) (EBin op a c) z.
(** a variable that is bound to a text, directly or by way of other variables *)
Inductive texted : nat -> str -> str -> Prop :=
| te_here n x s : env x = Some (VStr s) -> texted (S n) x s
| te_there n x y s : env x = Some (VNum (EVar y)) -> texted n y s -> texted (S n) x s.
End Values.
(** The text that a substitution stands for.  A number is shown in the format given, else in that of its numbers. *)
Inductive shows (n : nat) (line : Z) (E : @bindings value) : option format -> pexpr -> str -> Prop :=
| sw_number f x d z g : nexpr_of line x = Some d -> valued (look_up E) n d z -> (f <> None -> g = f) -> (f = None -> expr_format (look_up E) d g) ->
    shows n line E f x (display (mkNum g z))
| sw_text f v y t : env_name v y -> texted (look_up E) n y t -> shows n line E f (PVar v) t.
(** An expression that is a number. *)
Definition counts (n : nat) (line : Z) (E : @bindings value) (x : pexpr) : Prop :=
  exists d z g, nexpr_of line x = Some d /\ valued (look_up E) n d z /\ expr_format (look_up E) d g.
(** The text is a regular expression. *)
Inductive stands_for (ci : bool) (n : nat) (line : Z) (E : @bindings value) : seg -> list part -> Prop :=
| sf_fixed r : stands_for ci n line E (Fixed r) r
| sf_shown f x t y : shows n line E f x t -> build ci t = Some y -> stands_for ci n line E (Shown f x) [QRegex t]
| sf_given f v x : stands_for ci n line E (Given f v x) [QMatch (MNumeric f (Some v) None)].
(** --ignore-case has no effect on the letters of such a number. *)
Definition cased (ci : bool) (g : seg) : bool := if is_given g then false else ci.
(** Its value must be small enough. *)
Definition readable (g : seg) (cs : list (capt * str)) : Prop :=
  match g with Given f _ _ => forall c, In c cs -> exists z, parse_with_format (snd c) (format_of f) = POk z | _ => True end.

(** A number that is captured is not accepted if it has more characters than its precision asks for; without a precision any number
    is accepted, but none in base 16.  (The search then ends with an error, so that there is no scan.) *)
Definition short_number (f : format) (t : str) : Prop :=
  match f with Unsigned p | Signed p => p = 0 \/ length t <= p | Hex p x _ => length t <= p + (if x then 2 else 0) end.
Definition accepted (c : capt * str) : Prop := match k_ty (fst c) with TyStr => True | TyNum f => short_number (format_of f) (snd c) end.

Section Scan.
Context (ci : bool) (n : nat) (line : Z) (b : bytes) (e : nat).
Notation vars := (@bindings value).
(** From [q] on: each piece of the pattern takes the text that it prefers.  Either all of them find one, the last one ends at
    [j], and the variables are those of [E']; or one does not find any, or begins at the end of the range, at [q]. *)
Inductive follow : list seg -> nat -> vars -> nat + nat * vars -> Prop :=
| fo_end j E : follow [] j E (inr (j, E))
| fo_next g gs q k cs E p r : q < e -> stands_for ci n line E g p -> preferred (cased ci g) b e p q k cs -> readable g cs -> taken g gs k cs E r -> follow (g :: gs) q E r
| fo_limit g gs q E : e <= q -> follow (g :: gs) q E (inl q)
| fo_stop g gs q E p : q < e -> stands_for ci n line E g p -> (forall k cs, ~ pieces (cased ci g) b e p q k cs) -> follow (g :: gs) q E (inl q)
| fo_large g gs q k cs E p : q < e -> stands_for ci n line E g p -> preferred (cased ci g) b e p q k cs -> ~ readable g cs -> follow (g :: gs) q E (inl q)
(** The piece [g] has taken the text that ends at [k].  Its variables are defined, the last one first; but not at the end of the
    range.  The value of a constraint must be a number, but it need not be the number that was found. *)
with taken : seg -> list seg -> nat -> list (capt * str) -> vars -> nat + nat * vars -> Prop :=
| ta_go g gs k cs E vs r : is_given g = false -> all_kept cs vs -> Forall accepted cs -> (cs <> [] -> k < e) -> follow gs k (defined E (rev vs)) r -> taken g gs k cs E r
| ta_given f v x gs k c E z r : k < e -> counts n line E x -> parse_with_format (snd c) (format_of f) = POk z ->
    follow gs k (b_insert E v (VNum (ENum (mkNum (Some (format_of f)) z)))) r -> taken (Given f v x) gs k [c] E r
| ta_text f v w gs k cs E y t : k < e -> env_name w y -> texted (look_up E) n y t -> taken (Given f v (PVar w)) gs k cs E (inl k)
| ta_limit g gs k cs E : cs <> [] -> e <= k -> taken g gs k cs E (inl k).
(** The search: the first piece is looked for; where it is found, the others must follow.  If they do not, the search goes on
    where they stopped, or one character after the place where it began, whichever comes later. *)
Inductive scan : list seg -> nat -> vars -> option (nat * nat * vars) -> Prop :=
| sc_none g gs s E p : stands_for ci n line E g p -> (forall i j cs, s <= i <= e -> ~ pieces (cased ci g) b e p i j cs) -> scan (g :: gs) s E None
| sc_large g gs s E p i k cs : stands_for ci n line E g p -> first_pieces (cased ci g) b p s e i k cs -> preferred (cased ci g) b e p i k cs -> ~ readable g cs -> scan (g :: gs) s E None
| sc_found g gs s E p i k cs j E' : stands_for ci n line E g p -> first_pieces (cased ci g) b p s e i k cs -> preferred (cased ci g) b e p i k cs -> readable g cs ->
    taken g gs k cs E (inr (j, E')) -> scan (g :: gs) s E (Some (i, j, E'))
| sc_again g gs s E p i k cs q r : stands_for ci n line E g p -> first_pieces (cased ci g) b p s e i k cs -> preferred (cased ci g) b e p i k cs -> readable g cs ->
    taken g gs k cs E (inl q) -> scan (g :: gs) (Nat.min (Nat.max q (S s)) (length b)) E r -> scan (g :: gs) s E r.
End Scan.
(** What the search returns; the variables are not changed if nothing is found. *)
Definition scanned (at_ : nat) (E : @bindings value) (w : option (nat * nat * @bindings value)) : mresult * @bindings value :=
  match w with Some (i, j, E') => (mkRes Good (Some (mkInfo (mkRange i j) 0 at_)), E') | None => (failed ENone, E) end.
