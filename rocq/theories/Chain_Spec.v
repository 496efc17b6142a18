(** What a pattern with substitutions means: a text made of one piece for every part, where the pieces of
    substitutions depend on the variables, and the parts that define variables change them. *)
From Coq Require Import String.
From Verif Require Import Base Text_Model Cursor_Model Check_Model Lit_Model Lit_Spec Env_Model Num_Model Num_Spec Gram_Model Sum_Spec Parse_Model Regex_Model Regex_Spec Smart_Model Smart_Spec.
Open Scope list_scope.

(** The value of a variable that captured [t]. *)
Inductive kept : vtype -> str -> value -> Prop :=
| kp_str t : kept TyStr t (VStr t)
| kp_num f t z : parse_with_format t (format_of f) = POk z -> kept (TyNum f) t (VNum (ENum (mkNum f z))).
Definition all_kept (cs : list (capt * str)) (vs : list (vname * value)) : Prop :=
  Forall2 (fun c v => fst v = k_name (fst c) /\ kept (k_ty (fst c)) (snd c) (snd v)) cs vs.
(** a variable that is bound to a text, directly or by way of other variables *)
Inductive text_means (env : str -> option value) : str -> str -> Prop :=
| tm_here x s : env x = Some (VStr s) -> text_means env x s
| tm_there x y s : env x = Some (VNum (EVar y)) -> text_means env y s -> text_means env x s.
(** the name of a variable in an environment: that of a global variable begins with '$' *)
Inductive env_name : vname -> str -> Prop :=
| en_user x : env_name (User x) x
| en_global x : env_name (Global x) (of_string "$" ++ x).
(** the expression and the format of a substitution *)
Inductive substitution : part -> option format -> pexpr -> Prop :=
| su_var v : substitution (QMatch (MSubst v None)) None (PVar v)
| su_num f x : substitution (QMatch (MNumeric f None (Some x))) f x.

(** The format in which the value of an expression is shown if none is given: that of its numbers, as far as
    they have one; precisions agree if they are the same or one of them is none, a base-16 format that
    allows both cases agrees with the others of the same prefix. *)
Definition agree (p q : nat) : Prop := p = q \/ p = 0 \/ q = 0.
Inductive merged : option format -> option format -> option format -> Prop :=
| mg_none : merged None None None
| mg_left f : merged (Some f) None (Some f)
| mg_right f : merged None (Some f) (Some f)
| mg_unsigned p q : agree p q -> merged (Some (Unsigned p)) (Some (Unsigned q)) (Some (Unsigned (max p q)))
| mg_signed p q : agree p q -> merged (Some (Signed p)) (Some (Signed q)) (Some (Signed (max p q)))
| mg_hex p q x c d : agree p q -> c = d \/ c = Any \/ d = Any -> merged (Some (Hex p x c)) (Some (Hex q x d)) (Some (Hex (max p q) x c)).
Inductive expr_format (env : str -> option value) : nexpr -> option format -> Prop :=
| ef_num n : expr_format env (ENum n) (nformat n)
| ef_line l : expr_format env (ELine l) None
| ef_var x d g : env x = Some (VNum d) -> expr_format env d g -> expr_format env (EVar x) g
| ef_bin op a b f1 f2 g : expr_format env a f1 -> expr_format env b f2 -> merged f1 f2 g -> expr_format env (EBin op a b) g.
Definition number_format (env : str -> option value) (line : Z) (x : pexpr) (g : option format) : Prop :=
  exists d, nexpr_of line x = Some d /\ expr_format env d g.

Section Chain.
Context (ci : bool) (b : bytes) (e : nat) (line : Z).
(** [linked l E i j F]: the text from [i] to [j] is one for the parts [l] if the variables are those of [E];
    they are those of [F] afterwards.
    - A part without substitution takes a piece and defines its variable.
    - A substitution of a number takes the digits of its value, in the format given if there is one, else in that of its numbers.
    - A substitution of a text takes what the text matches as a regular expression.
    - A definition with a constraint takes a number in its format; the variable is that number. *)
Inductive linked : list part -> @bindings value -> nat -> nat -> @bindings value -> Prop :=
| lk_nil E i : linked [] E i i E
| lk_piece q l E i k j cs vs F : piece ci b e q i k cs -> all_kept cs vs -> linked l (defined E vs) k j F -> linked (q :: l) E i j F
| lk_number q f x z g l E i j F : substitution q f x -> tree_value (bound (look_up E) line) x z -> (f <> None -> g = f) ->
    (f = None -> number_format (look_up E) line x g) ->
    i + length (display (mkNum g z)) <= e -> text_at ci b (display (mkNum g z)) i ->
    linked l E (i + length (display (mkNum g z))) j F -> linked (q :: l) E i j F
| lk_text q f v n s x l E i k j F : substitution q f (PVar v) -> env_name v n -> text_means (look_up E) n s ->
    build ci s = Some x -> lang ci b e (x_re x) i k -> linked l E k j F -> linked (q :: l) E i j F
| lk_define f v x z l E i k j F t : i <= k -> k <= e -> in_lang (format_lang (format_of f)) t -> Forall2 (alike ci) t (between b i k) ->
    parse_with_format (between b i k) (format_of f) = POk z ->
    linked l (b_insert E v (VNum (ENum (mkNum (Some (format_of f)) z)))) k j F -> linked (QMatch (MNumeric f (Some v) (Some x)) :: l) E i j F.
End Chain.

(** the same variables with the same values *)
Definition same_vars (E F : @bindings value) : Prop :=
  (forall x, b_system E x = b_system F x) /\ (forall x, b_global E x = b_global F x) /\ forall v, b_bound E v = b_bound F v.
(** A part that can be compiled; the text of a literal is not changed by the treatment of white space: with
    --strict-whitespace any, without it one without tabulators (see tab_refuted). *)
Inductive compilable (ci strict : bool) : part -> Prop :=
| cm_static q : static ci q -> (forall t, q = QLit t -> strict = true \/ ~ In 9%N t) -> (forall t c, q = QLit t -> In c t -> (c < 128)%N) -> compilable ci strict q
| cm_subst q f x : substitution q f x -> compilable ci strict q
| cm_define f v x : compiles (format_lang (format_of f)) -> identifier (v_text v) -> compilable ci strict (QMatch (MNumeric f (Some v) (Some x))).
Definition is_dynamic (q : part) : bool :=
  match q with QMatch (MSubst _ None) | QMatch (MNumeric _ _ (Some _)) => true | _ => false end.

(** What a search of the range from [s] to [e] may return, if it ends without an error: a text that is linked
    for the parts, with the variables that the parts leave; or no match, which leaves the variables; or a
    match whose captures are not numbers that can be represented. *)
Inductive chain_outcome (ci : bool) (b : bytes) (line : Z) (l : list part) (s e at_ : nat) (env0 : @bindings value) : mresult * @bindings value -> Prop :=
| co_found i j F env1 : s <= i -> i <= j -> j <= e -> linked ci b e line l env0 i j F -> same_vars F env1 ->
    chain_outcome ci b line l s e at_ env0 (mkRes Good (Some (mkInfo (mkRange i j) 0 at_)), env1)
| co_none : chain_outcome ci b line l s e at_ env0 (failed ENone, env0)
| co_bad env1 : chain_outcome ci b line l s e at_ env0 (failed (EMatch true), env1).

(** A pattern whose text is known beforehand: literals and variables that are bound to texts without special
    characters or to numbers.  [fixed E l t]: its text is [t].  The parts are not empty. *)
Definition special : str := of_string "\.[()|^$*+?{".
Inductive plain_value (E : @bindings value) : vname -> str -> Prop :=
| pv_text v n t : env_name v n -> look_up E n = Some (VStr t) -> t <> [] -> (forall c, In c t -> ~ In c special) -> plain_value E v t
| pv_number v n k : env_name v n -> look_up E n = Some (VNum (ENum k)) -> plain_value E v (display k).
Definition plain_literal (strict : bool) (t : str) : Prop := t <> [] /\ (strict = true \/ ~ In 9%N t) /\ forall c, In c t -> (c < 128)%N.
Inductive fixed (strict : bool) (E : @bindings value) : list part -> str -> Prop :=
| fx_nil : fixed strict E [] []
| fx_lit t l u : plain_literal strict t -> fixed strict E l u -> fixed strict E (QLit t :: l) (t ++ u)
| fx_var v t l u : plain_value E v t -> fixed strict E l u -> fixed strict E (QMatch (MSubst v None) :: l) (t ++ u).
