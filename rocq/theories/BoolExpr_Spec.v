(** Specification of lit's feature expression language: the grammar documented at
    boolean.rs:235-253, written independently of the parser, and a minimal-parenthesis printer. *)
From Verif Require Import Base BoolExpr_Model.
From Coq Require Import String.
Local Open Scope N_scope.

(** identifier ::= [-+=._a-zA-Z0-9]+ *)
Definition ident_char (c : N) : Prop :=
  In c (of_string "-+=._abcdefghijklmnopqrstuvwxyzABCDEFGHIJKLMNOPQRSTUVWXYZ0123456789").
(** Unicode White_Space *)
Definition white (c : N) : Prop :=
  In c [9;10;11;12;13;32;133;160;5760;8192;8193;8194;8195;8196;8197;8198;8199;8200;8201;8202;
        8232;8233;8239;8287;12288].
Definition blank (s : str) : Prop := Forall white s.

(** How a token is written.  A regex is written between double braces and cannot itself contain
    a closing brace. *)
Inductive spells : token -> str -> Prop :=
| sp_ident w : w <> [] -> Forall ident_char w -> spells (TIdent w) w
| sp_pattern p : p <> [] -> ~ In 0 p -> ~ In 125 p ->
    spells (TPattern p) (of_string "{{" ++ p ++ of_string "}}")
| sp_and : spells TAnd (of_string "&&")
| sp_or : spells TOr (of_string "||")
| sp_not : spells TNot (of_string "!")
| sp_lparen : spells TLparen (of_string "(")
| sp_rparen : spells TRparen (of_string ")").

(** Two identifiers cannot touch: an identifier is not followed by an identifier character. *)
Definition separated (t : token) (rest : str) : Prop :=
  match t, rest with TIdent _, c :: _ => ~ ident_char c | _, _ => True end.

(** [s] is a way to write the token list [ts], with white space anywhere between tokens. *)
Inductive layout (sp : token -> str -> Prop) : str -> list token -> Prop :=
| lay_nil ws : blank ws -> layout sp ws []
| lay_cons ws t w rest ts :
    blank ws -> sp t w -> separated t rest -> layout sp rest ts ->
    layout sp (ws ++ w ++ rest) (t :: ts).

(** The documented grammar over tokens; [valid] says which regexes compile. *)
Inductive g_match (valid : str -> bool) : list token -> expr -> Prop :=
| g_var w : w <> of_string "true" -> w <> of_string "false" -> g_match valid [TIdent w] (Var w)
| g_true : g_match valid [TIdent (of_string "true")] (Lit true)
| g_false : g_match valid [TIdent (of_string "false")] (Lit false)
| g_pattern ts re :
    (forall t, In t ts -> exists w, t = TIdent w \/ t = TPattern w) ->
    (exists p, In (TPattern p) ts) ->
    re = flat_map part_regex ts -> valid re = true ->
    g_match valid ts (Pattern re).

Inductive g_or (valid : str -> bool) : list token -> expr -> Prop :=
| g_or_intro ts e rest e' :
    g_and valid ts e -> g_ors valid rest e e' -> g_or valid (ts ++ rest) e'
with g_ors (valid : str -> bool) : list token -> expr -> expr -> Prop :=
| g_ors_nil e : g_ors valid [] e e
| g_ors_cons ts e2 rest e e' :
    g_and valid ts e2 -> g_ors valid rest (Or e e2) e' ->
    g_ors valid (TOr :: ts ++ rest) e e'
with g_and (valid : str -> bool) : list token -> expr -> Prop :=
| g_and_intro ts e rest e' :
    g_not valid ts e -> g_ands valid rest e e' -> g_and valid (ts ++ rest) e'
with g_ands (valid : str -> bool) : list token -> expr -> expr -> Prop :=
| g_ands_nil e : g_ands valid [] e e
| g_ands_cons ts e2 rest e e' :
    g_not valid ts e2 -> g_ands valid rest (And e e2) e' ->
    g_ands valid (TAnd :: ts ++ rest) e e'
with g_not (valid : str -> bool) : list token -> expr -> Prop :=
| g_not_not ts e : g_not valid ts e -> g_not valid (TNot :: ts) (Not e)
| g_not_paren ts e : g_or valid ts e -> g_not valid (TLparen :: ts ++ [TRparen]) e
| g_not_match ts e : g_match valid ts e -> g_not valid ts e.

(** What the tokenizer really accepts as a pattern: also a single opening brace, which then
    becomes part of the regex. *)
Inductive spells_lenient : token -> str -> Prop :=
| sl_strict t w : spells t w -> spells_lenient t w
| sl_single p : hd 0 p <> 123 -> ~ In 0 p -> ~ In 125 p ->
    spells_lenient (TPattern (123 :: p)) (of_string "{" ++ p ++ of_string "}}").

(** Expressions as a user thinks of them, independent of any layout. *)
Inductive sexpr :=
| SLit (b : bool)
| SVar (x : str)
| SPat (re : str)
| SNot (e : sexpr)
| SAnd (l r : sexpr)
| SOr (l r : sexpr).

Definition wf_ident (x : str) : Prop :=
  x <> [] /\ Forall ident_char x /\ x <> of_string "true" /\ x <> of_string "false".
Definition wf_regex (valid : str -> bool) (p : str) : Prop :=
  p <> [] /\ ~ In 0 p /\ ~ In 125 p /\ valid (of_string "(" ++ p ++ of_string ")") = true.
Fixpoint wf (valid : str -> bool) (e : sexpr) : Prop :=
  match e with
  | SLit _ => True
  | SVar x => wf_ident x
  | SPat p => wf_regex valid p
  | SNot e => wf valid e
  | SAnd a b | SOr a b => wf valid a /\ wf valid b
  end.

(** The expression meant; a pattern is compiled as a group. *)
Fixpoint denote (e : sexpr) : expr :=
  match e with
  | SLit b => Lit b
  | SVar x => Var x
  | SPat p => Pattern (of_string "(" ++ p ++ of_string ")")
  | SNot e => Not (denote e)
  | SAnd a b => And (denote a) (denote b)
  | SOr a b => Or (denote a) (denote b)
  end.

(** Minimal parentheses for  ! > && > ||,  binary operators associating to the left:
    level 0 = '||' allowed bare, 1 = '&&' allowed bare, 2 = operand of '!'. *)
Fixpoint show (lvl : nat) (e : sexpr) : list token :=
  match e with
  | SLit true => [TIdent (of_string "true")]
  | SLit false => [TIdent (of_string "false")]
  | SVar x => [TIdent x]
  | SPat p => [TPattern p]
  | SNot e => TNot :: show 2 e
  | SAnd a b =>
      let body := show 1 a ++ TAnd :: show 2 b in
      if Nat.leb lvl 1 then body else TLparen :: body ++ [TRparen]
  | SOr a b =>
      let body := show 0 a ++ TOr :: show 1 b in
      if Nat.leb lvl 0 then body else TLparen :: body ++ [TRparen]
  end.

(** Truth of an expression among the features [F] (a set given by membership). *)
Fixpoint holds (rmatch : str -> str -> bool) (F : str -> Prop) (e : expr) : Prop :=
  match e with
  | Lit b => b = true
  | Var x => F x
  | Pattern re => exists v, F v /\ rmatch re v = true
  | Not x => ~ holds rmatch F x
  | And x y => holds rmatch F x /\ holds rmatch F y
  | Or x y => holds rmatch F x \/ holds rmatch F y
  end.

(** Sub-patterns of an expression. *)
Fixpoint patterns (e : expr) : list str :=
  match e with
  | Lit _ | Var _ => []
  | Pattern p => [p]
  | Not x => patterns x
  | And x y | Or x y => patterns x ++ patterns y
  end.
(** Every pattern wrapped in one more group. *)
Fixpoint regroup (e : expr) : expr :=
  match e with
  | Lit b => Lit b
  | Var x => Var x
  | Pattern p => Pattern (of_string "(" ++ p ++ of_string ")")
  | Not x => Not (regroup x)
  | And x y => And (regroup x) (regroup y)
  | Or x y => Or (regroup x) (regroup y)
  end.
