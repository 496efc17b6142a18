(** What the expression of a numeric block denotes: terms added and subtracted from left to right. *)
From Coq Require Import String.
From Verif Require Import Base Num_Model Num_Spec Env_Model Gram_Model.
Open Scope string_scope.
Open Scope list_scope.

(** the ways to name a variable *)
Inductive names : list token -> vname -> Prop :=
| na_user s : names [TIdent s] (User s)
| na_global s : names [TDollar; TIdent s] (Global s)
| na_pseudo s : names [TAt; TIdent s] (Pseudo s)
| na_line : names [TAt; TLine] (Pseudo (of_string "LINE")).
(** the functions *)
Inductive function : token -> binop -> Prop :=
| fn_add : function TAdd OAdd
| fn_sub : function TSub OSub
| fn_mul : function TMul OMul
| fn_div : function TDiv ODiv
| fn_min : function TMin OMin
| fn_max : function TMax OMax.

Section Value.
(** the values of the variables *)
Context (val : vname -> Z -> Prop).
Inductive term_value : list token -> Z -> Prop :=
| tv_num n : term_value [TNum n] n
| tv_neg n : term_value [TMinus; TNum n] (- n)
| tv_name ws v z : names ws v -> val v z -> term_value ws z
| tv_paren ws z : sum_value ws z -> term_value (TLParen :: ws ++ [TRParen]) z
| tv_fun f op a b x y z : function f op -> sum_value a x -> sum_value b y -> op_means op x y z ->
    term_value (f :: TLParen :: a ++ TComma :: b ++ [TRParen]) z
with sum_value : list token -> Z -> Prop :=
| sv_sum t r x z : term_value t x -> rest_value x r z -> sum_value (t ++ r) z
(** [rest_value x r z]: from [x] on, adding and subtracting the terms of [r] gives [z] *)
with rest_value : Z -> list token -> Z -> Prop :=
| rv_end x : rest_value x [] x
| rv_plus x t y r z : term_value t y -> rest_value (x + y) r z -> rest_value x (TPlus :: t ++ r) z
| rv_minus x t y r z : term_value t y -> rest_value (x - y) r z -> rest_value x (TMinus :: t ++ r) z.

(** the value of an expression *)
Inductive tree_value : pexpr -> Z -> Prop :=
| pv_num n : tree_value (PNum n) n
| pv_var v z : val v z -> tree_value (PVar v) z
| pv_bin op a b x y z : tree_value a x -> tree_value b y -> op_means op x y z -> tree_value (PBin op a b) z.
End Value.

(** a term, whatever its value *)
Definition is_term (ws : list token) : Prop := exists val z, term_value val ws z.
(** What stands before the expression of a numeric block: a format and a comma, a name and a colon,
    an "==". *)
Inductive before_expr : option format -> option vname -> list token -> Prop :=
| be_all f fs c cs e : 
    (f = None /\ fs = [] \/ exists fm w, f = Some fm /\ fs = w ++ [TComma] /\ d_format w fm) ->
    (c = None /\ cs = [] \/ exists v w, c = Some v /\ cs = w ++ [TColon] /\ names w v) ->
    (e = [] \/ e = [TEquals]) ->
    before_expr f c (fs ++ cs ++ e).
(** The expressions whose value does not depend on how they are grouped: after a colon or "==" any, else
    a term, two terms, or those with '+' after the first term. *)
Definition in_order (head body : list token) : Prop :=
  (exists h, head = h ++ [TColon] \/ head = h ++ [TEquals]) \/ is_term body \/
  (exists t r, body = t ++ TPlus :: r /\ is_term t) \/
  (exists t u, body = t ++ TMinus :: u /\ is_term t /\ is_term u).

(** The value of a variable in an environment of numbers; a global variable is written with its '$',
    [line] is the line of the block. *)
Definition bound (env : str -> option value) (line : Z) (v : vname) (z : Z) : Prop :=
  match v with
  | User x => exists d, env x = Some (VNum d) /\ expr_means env d z
  | Global x => exists d, env (of_string "$" ++ x) = Some (VNum d) /\ expr_means env d z
  | Pseudo x => x = of_string "LINE" /\ z = line
  end.
(** ... and the expression as the evaluator gets it *)
Fixpoint nexpr_of (line : Z) (e : pexpr) : option nexpr :=
  match e with
  | PNum n => Some (ENum (mkNum None n))
  | PVar (User x) => Some (EVar x)
  | PVar (Global x) => Some (EVar (of_string "$" ++ x))
  | PVar (Pseudo x) => if str_eqb x (of_string "LINE") then Some (ELine line) else None
  | PBin op a b => match nexpr_of line a, nexpr_of line b with Some x, Some y => Some (EBin op x y) | _, _ => None end
  end.
(** the words that cannot be names *)
Definition reserved (w : str) : Prop :=
  In w (map of_string ["LITERAL"; "LINE"; "add"; "sub"; "mul"; "div"; "min"; "max"]).
