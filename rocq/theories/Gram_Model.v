(** Model of the grammar of match blocks: filecheck/src/parse/grammar.lalrpop, the tokens of
    filecheck/src/parse/lexer/token.rs and the tree of filecheck/src/ast/pattern.rs and
    filecheck/src/expr/mod.rs.  Spans are left out, and a failed parse is only known to have failed.
    The relations [d_*] transcribe the productions one by one, with their semantic actions; the parser
    generated by LALRPOP is trusted to accept exactly the sentences of its grammar, with the result of
    their (only) derivation.  [parse_match] is an executable form of it, which Gram_Proofs shows to
    compute exactly the relation. *)
From Coq Require Import String.
From Verif Require Import Base Num_Model Env_Model.
Open Scope string_scope.
Open Scope list_scope.

(** token.rs:9-73.  [Eof], [LBrace], [RBrace], [Equal] and [Lf] inside a block are never produced by
    the lexer (lexer/mod.rs) and stand for no sentence of the grammar; [TErr] is an [Err] item of the
    token stream (lexer/mod.rs:18), [TBad] is [Token::Error]. *)
Inductive ckind := CPlain | CNext | CSame | CNot | CDag | CLabel | CEmpty | CCount (n : nat).
Inductive token :=
| TLf | TErr | TBad
| TCheck (k : ckind) | TModifier | TComment (s : str)
| TRaw (s : str) | TIdent (s : str) | TNum (n : Z)
| TMatchStart | TMatchEnd | TRegexStart | TRegexEnd
| TLParen | TRParen | THash | TDollar | TPercent | TAt | TComma | TDot | TColon | TPlus | TMinus | TEquals
| TLiteral | TLine | TAdd | TSub | TMul | TDiv | TMin | TMax.

(** token.rs:74-89 *)
Definition keyword_or_ident (s : str) : token :=
  if str_eqb s (of_string "LITERAL") then TLiteral
  else if str_eqb s (of_string "LINE") then TLine
  else if str_eqb s (of_string "add") then TAdd
  else if str_eqb s (of_string "sub") then TSub
  else if str_eqb s (of_string "mul") then TMul
  else if str_eqb s (of_string "div") then TDiv
  else if str_eqb s (of_string "min") then TMin
  else if str_eqb s (of_string "max") then TMax
  else TIdent s.

(** expr/mod.rs:24-35.  The numbers of the grammar carry no format (num.rs: [Number::new]). *)
Inductive pexpr := PNum (n : Z) | PVar (v : vname) | PBin (op : binop) (l r : pexpr).
(** ast/pattern.rs [Match]; the only constraint is [Eq] *)
Inductive pmatch :=
| MSubst (name : vname) (pattern : option str)
| MNumeric (f : option format) (capture : option vname) (e : option pexpr).

(** expr/mod.rs:46-86 *)
Definition from_call (callee : str) (args : list pexpr) : option pexpr :=
  match args with
  | [l; r] =>
      if str_eqb callee (of_string "add") then Some (PBin OAdd l r)
      else if str_eqb callee (of_string "sub") then Some (PBin OSub l r)
      else if str_eqb callee (of_string "mul") then Some (PBin OMul l r)
      else if str_eqb callee (of_string "div") then Some (PBin ODiv l r)
      else if str_eqb callee (of_string "min") then Some (PBin OMin l r)
      else if str_eqb callee (of_string "max") then Some (PBin OMax l r)
      else None
  | _ => None
  end.

(** grammar.lalrpop:251-258 [BinaryOp] *)
Definition binop_of (t : token) : option binop :=
  match t with
  | TAdd => Some OAdd | TSub => Some OSub | TMul => Some OMul | TDiv => Some ODiv
  | TMin => Some OMin | TMax => Some OMax | _ => None
  end.

(** grammar.lalrpop:263-293 [PatternVar], [PatternOrLineVar], [GlobalVar], [PseudoVar], [LineVar], [Var] *)
Inductive d_pattern_var : list token -> vname -> Prop :=
| dv_global s : d_pattern_var [TDollar; TIdent s] (Global s)
| dv_pseudo s : d_pattern_var [TAt; TIdent s] (Pseudo s)
| dv_user s : d_pattern_var [TIdent s] (User s).
Inductive d_line_var : list token -> vname -> Prop :=
| dv_line : d_line_var [TAt; TLine] (Pseudo (of_string "LINE")).
Inductive d_var : list token -> vname -> Prop :=
| dv_pattern ts v : d_pattern_var ts v -> d_var ts v
| dv_line_var ts v : d_line_var ts v -> d_var ts v.
(** grammar.lalrpop:278-281 [MaybeGlobalVar] *)
Inductive d_maybe_global : list token -> vname -> Prop :=
| dm_global s : d_maybe_global [TDollar; TIdent s] (Global s)
| dm_user s : d_maybe_global [TIdent s] (User s).

(** grammar.lalrpop:219-249 [Expr], [Subexpr], [Builtin], [Call], [Term], 295-310 [Callee], [Num], [Negate];
    60-68 [Comma].  The [ERROR] alternatives never succeed. *)
Inductive d_expr : list token -> pexpr -> Prop :=
| de_add a b x y : d_expr a x -> d_sub b y -> d_expr (a ++ TPlus :: b) (PBin OAdd x y)
| de_sub a b x y : d_expr a x -> d_sub b y -> d_expr (a ++ TMinus :: b) (PBin OSub x y)
| de_one a x : d_sub a x -> d_expr a x
with d_sub : list token -> pexpr -> Prop :=
| ds_builtin a x : d_builtin a x -> d_sub a x
| ds_call f a l x : d_args a l -> from_call f l = Some x -> d_sub (TIdent f :: TLParen :: a ++ [TRParen]) x
| ds_num n : d_sub [TNum n] (PNum n)
| ds_neg n : d_sub [TMinus; TNum n] (PNum (- n))
| ds_var a v : d_var a v -> d_sub a (PVar v)
| ds_paren a x : d_expr a x -> d_sub (TLParen :: a ++ [TRParen]) x
with d_builtin : list token -> pexpr -> Prop :=
| db_op t op a b x y : binop_of t = Some op -> d_expr a x -> d_expr b y ->
    d_builtin (t :: TLParen :: a ++ TComma :: b ++ [TRParen]) (PBin op x y)
with d_args : list token -> list pexpr -> Prop :=
| da_one a x : d_expr a x -> d_args a [x]
| da_more a b x l : d_expr a x -> d_args b l -> d_args (a ++ TComma :: b) (x :: l).

(** grammar.lalrpop:181-185 [CaptureExprRest], applied to the expression before it *)
Inductive d_rest (l : pexpr) : list token -> pexpr -> Prop :=
| dr_add a x : d_expr a x -> d_rest l (TPlus :: a) (PBin OAdd l x)
| dr_sub a x : d_expr a x -> d_rest l (TMinus :: a) (PBin OSub l x)
| dr_none : d_rest l [] l.

(** grammar.lalrpop:192-195 [Constraint] *)
Inductive d_constraint : list token -> pexpr -> Prop :=
| dc_eq a x : d_expr a x -> d_constraint (TEquals :: a) x
| dc_expr a x : d_expr a x -> d_constraint a x.

(** grammar.lalrpop:127-179, 187-190 [CaptureNumericOrExpr], [EitherCaptureOrExpr]: the variable
    captured and the expression *)
Inductive d_capture : list token -> option vname -> option pexpr -> Prop :=
| dk_bind a v : d_var a v -> d_capture (a ++ [TColon]) (Some v) None
| dk_bind_to a v b x : d_var a v -> d_constraint b x -> d_capture (a ++ TColon :: b) (Some v) (Some x)
| dk_var a v b x : d_var a v -> d_rest (PVar v) b x -> d_capture (a ++ b) None (Some x)
| dk_eq a x : d_expr a x -> d_capture (TEquals :: a) None (Some x)
| dk_builtin a x : d_builtin a x -> d_capture a None (Some x)
| dk_paren a l b x : d_expr a l -> d_rest l b x -> d_capture (TLParen :: a ++ TRParen :: b) None (Some x).

(** grammar.lalrpop:199-215 [NumberFormat], 312-340 [RequirePrefix], [FormatSpecifier], [Precision] *)
Inductive d_precision : list token -> nat -> Prop :=
| dp_none : d_precision [] 0
| dp_some n : (0 <= n <= 255)%Z -> d_precision [TDot; TNum n] (Z.to_nat n).
Inductive d_prefix : list token -> bool -> Prop :=
| dx_none : d_prefix [] false
| dx_some : d_prefix [THash] true.
Inductive d_format : list token -> format -> Prop :=
| df_unsigned a p s : d_precision a p -> s = [] \/ s = [TIdent (of_string "u")] -> d_format (TPercent :: a ++ s) (Unsigned p)
| df_signed a p : d_precision a p -> d_format (TPercent :: a ++ [TIdent (of_string "d")]) (Signed p)
| df_lower h a p b : d_prefix h b -> d_precision a p -> d_format (TPercent :: h ++ a ++ [TIdent (of_string "x")]) (Hex p b Any)
| df_upper h a p b : d_prefix h b -> d_precision a p -> d_format (TPercent :: h ++ a ++ [TIdent (of_string "X")]) (Hex p b Upper).

(** grammar.lalrpop:73-125 [Match] *)
Inductive d_match : list token -> pmatch -> Prop :=
| dt_line a v : d_line_var a v -> d_match (TMatchStart :: a ++ [TMatchEnd]) (MSubst v None)
| dt_line_expr a v op b x : d_line_var a v ->
    (op = TPlus \/ op = TMinus) -> d_rest (PVar v) (op :: b) x ->
    d_match (TMatchStart :: a ++ op :: b ++ [TMatchEnd]) (MNumeric None None (Some x))
| dt_var a v : d_pattern_var a v -> d_match (TMatchStart :: a ++ [TMatchEnd]) (MSubst v None)
| dt_capture a v s : d_maybe_global a v -> d_match (TMatchStart :: a ++ [TColon; TRaw s; TMatchEnd]) (MSubst v (Some s))
| dt_num0 : d_match [TMatchStart; THash; TMatchEnd] (MNumeric None None None)
| dt_num1 f fm : d_format f fm -> d_match (TMatchStart :: THash :: f ++ [TComma; TMatchEnd]) (MNumeric (Some fm) None None)
| dt_num2 a c e : d_capture a c e -> d_match (TMatchStart :: THash :: a ++ [TMatchEnd]) (MNumeric None c e)
| dt_num3 f fm a c e : d_format f fm -> d_capture a c e ->
    d_match (TMatchStart :: THash :: f ++ TComma :: a ++ [TMatchEnd]) (MNumeric (Some fm) c e).

(** * The executable form *)
Definition p_var (ts : list token) : option (vname * list token) :=
  match ts with
  | TDollar :: TIdent s :: r => Some (Global s, r)
  | TAt :: TIdent s :: r => Some (Pseudo s, r)
  | TAt :: TLine :: r => Some (Pseudo (of_string "LINE"), r)
  | TIdent s :: r => Some (User s, r)
  | _ => None
  end.

Fixpoint p_expr (fuel : nat) (ts : list token) : option (pexpr * list token) :=
  match fuel with
  | O => None
  | S k =>
      match p_sub k ts with
      | Some (x, r) => p_chain k x r
      | None => None
      end
  end
with p_chain (fuel : nat) (x : pexpr) (ts : list token) : option (pexpr * list token) :=
  match fuel with
  | O => None
  | S k =>
      match ts with
      | TPlus :: r => match p_sub k r with Some (y, r') => p_chain k (PBin OAdd x y) r' | None => None end
      | TMinus :: r => match p_sub k r with Some (y, r') => p_chain k (PBin OSub x y) r' | None => None end
      | _ => Some (x, ts)
      end
  end
with p_sub (fuel : nat) (ts : list token) : option (pexpr * list token) :=
  match fuel with
  | O => None
  | S k =>
      match ts with
      | TNum n :: r => Some (PNum n, r)
      | TMinus :: TNum n :: r => Some (PNum (- n), r)
      | TLParen :: r =>
          match p_expr k r with
          | Some (x, TRParen :: r') => Some (x, r')
          | _ => None
          end
      | TIdent f :: TLParen :: r =>
          match p_args k r with
          | Some (l, TRParen :: r') => match from_call f l with Some x => Some (x, r') | None => None end
          | _ => None
          end
      | t :: TLParen :: r =>
          match binop_of t with
          | Some op =>
              match p_expr k r with
              | Some (x, TComma :: r') =>
                  match p_expr k r' with
                  | Some (y, TRParen :: r'') => Some (PBin op x y, r'')
                  | _ => None
                  end
              | _ => None
              end
          | None => None
          end
      | _ => match p_var ts with Some (v, r) => Some (PVar v, r) | None => None end
      end
  end
with p_args (fuel : nat) (ts : list token) : option (list pexpr * list token) :=
  match fuel with
  | O => None
  | S k =>
      match p_expr k ts with
      | Some (x, TComma :: r) => match p_args k r with Some (l, r') => Some (x :: l, r') | None => None end
      | Some (x, r) => Some ([x], r)
      | None => None
      end
  end.

Definition p_full (ts : list token) : option pexpr :=
  match p_expr (2 * List.length ts + 1) ts with Some (x, []) => Some x | _ => None end.
Definition p_rest (l : pexpr) (ts : list token) : option pexpr :=
  match ts with
  | [] => Some l
  | TPlus :: r => option_map (PBin OAdd l) (p_full r)
  | TMinus :: r => option_map (PBin OSub l) (p_full r)
  | _ => None
  end.
Definition p_constraint (ts : list token) : option pexpr :=
  match ts with TEquals :: r => p_full r | _ => p_full ts end.
Definition p_capture (ts : list token) : option (option vname * option pexpr) :=
  let expr o := option_map (fun x => (None, Some x)) o in
  match ts with
  | TEquals :: r => expr (p_full r)
  | TLParen :: r =>
      match p_expr (2 * List.length ts + 1) r with
      | Some (x, TRParen :: r') => expr (p_rest x r')
      | _ => None
      end
  | (TAdd | TSub | TMul | TDiv | TMin | TMax) :: _ =>
      match p_sub (2 * List.length ts) ts with Some (x, []) => expr (Some x) | _ => None end
  | _ =>
      match p_var ts with
      | Some (v, [TColon]) => Some (Some v, None)
      | Some (v, TColon :: r) => option_map (fun x => (Some v, Some x)) (p_constraint r)
      | Some (v, r) => expr (p_rest (PVar v) r)
      | None => None
      end
  end.
Definition p_precision (ts : list token) : option (nat * list token) :=
  match ts with
  | TDot :: TNum n :: r => if ((0 <=? n) && (n <=? 255))%Z then Some (Z.to_nat n, r) else None
  | TDot :: _ => None
  | _ => Some (0, ts)
  end.
Definition p_format (ts : list token) : option (format * list token) :=
  let '(b, r) := match ts with THash :: r => (true, r) | _ => (false, ts) end in
  match p_precision r with
  | None => None
  | Some (p, TIdent s :: r') =>
      if str_eqb s (of_string "u") then if b then None else Some (Unsigned p, r')
      else if str_eqb s (of_string "d") then if b then None else Some (Signed p, r')
      else if str_eqb s (of_string "x") then Some (Hex p b Any, r')
      else if str_eqb s (of_string "X") then Some (Hex p b Upper, r')
      else None
  | Some (p, r') => if b then None else Some (Unsigned p, r')
  end.
Definition p_numeric (f : option format) (ts : list token) : option pmatch :=
  match ts with
  | [] => Some (MNumeric f None None)
  | _ => option_map (fun c => MNumeric f (fst c) (snd c)) (p_capture ts)
  end.
Definition p_body (ts : list token) : option pmatch :=
  match ts with
  | [TAt; TLine] => Some (MSubst (Pseudo (of_string "LINE")) None)
  | TAt :: TLine :: r => option_map (fun x => MNumeric None None (Some x)) (p_rest (PVar (Pseudo (of_string "LINE"))) r)
  | [TDollar; TIdent s] => Some (MSubst (Global s) None)
  | [TAt; TIdent s] => Some (MSubst (Pseudo s) None)
  | [TIdent s] => Some (MSubst (User s) None)
  | [TDollar; TIdent s; TColon; TRaw p] => Some (MSubst (Global s) (Some p))
  | [TIdent s; TColon; TRaw p] => Some (MSubst (User s) (Some p))
  | THash :: TPercent :: r =>
      match p_format r with
      | Some (f, TComma :: r') => p_numeric (Some f) r'
      | _ => None
      end
  | THash :: r => p_numeric None r
  | _ => None
  end.
Definition parse_match (ts : list token) : option pmatch :=
  match ts with
  | TMatchStart :: r =>
      match rev r with
      | TMatchEnd :: b => p_body (rev b)
      | _ => None
      end
  | _ => None
  end.
