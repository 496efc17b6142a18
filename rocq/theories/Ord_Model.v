(** Model of the comparisons ([Ord] and [PartialEq]) of filecheck: ast/pattern.rs [Capture], [Match],
    [Prefix]; expr/mod.rs [TypedVariable], [Expr], [BinaryOp]; expr/num.rs [Number]; expr/value.rs
    [ValueType]; core/src/variables/mod.rs [VariableName]; and of the map with which
    matchers/all.rs recognises a prefix it has seen.

    Spans take no part in any of them (span.rs:281-313).  A symbol is its text, which is what its order
    looks at (symbol/mod.rs:101-110); that equal texts are equal symbols is C50.  The order of Rust's
    [str] is that of the code points. *)
From Coq Require Import String.
From Verif Require Import Base Env_Model Num_Model Gram_Model Parse_Model Smart_Model PatSet_Model.
Open Scope string_scope.
Open Scope list_scope.
Open Scope nat_scope.

(** * The standard library: [Ordering::then], slices, [Option], derived orders *)
Definition and_then (a b : comparison) : comparison := match a with Eq => b | _ => a end.
Fixpoint list_cmp {A} (c : A -> A -> comparison) (l m : list A) : comparison :=
  match l, m with
  | [], [] => Eq
  | [], _ :: _ => Lt
  | _ :: _, [] => Gt
  | x :: l, y :: m => and_then (c x y) (list_cmp c l m)
  end.
Definition text_cmp : str -> str -> comparison := list_cmp N.compare.
Definition option_cmp {A} (c : A -> A -> comparison) (a b : option A) : comparison :=
  match a, b with None, None => Eq | None, Some _ => Lt | Some _, None => Gt | Some x, Some y => c x y end.

(** * Names, types and numbers *)
(** core/src/variables/mod.rs:96-101, derived *)
Definition name_rank (v : vname) : nat := match v with Pseudo _ => 0 | Global _ => 1 | User _ => 2 end.
Definition name_text (v : vname) : str := match v with Pseudo s | Global s | User s => s end.
Definition name_cmp (a b : vname) : comparison :=
  and_then (Nat.compare (name_rank a) (name_rank b)) (text_cmp (name_text a) (name_text b)).
(** expr/num.rs:345-360, 363-369, derived; 443-448 [discriminant] *)
Definition casing_eq (a b : casing) : bool := match a, b with Any, Any | Upper, Upper | Lower, Lower => true | _, _ => false end.
Definition format_eq (a b : format) : bool :=
  match a, b with
  | Unsigned p, Unsigned q | Signed p, Signed q => Nat.eqb p q
  | Hex p x c, Hex q y d => (Nat.eqb p q && Bool.eqb x y && casing_eq c d)%bool
  | _, _ => false
  end.
Definition discriminant (f : format) : nat := match f with Unsigned _ => 0 | Signed _ => 1 | Hex _ _ _ => 2 end.
Definition option_eq {A} (e : A -> A -> bool) (a b : option A) : bool :=
  match a, b with None, None => true | Some x, Some y => e x y | _, _ => false end.
(** expr/value.rs:35-39, derived, and 56-84 *)
Definition type_eq (a b : vtype) : bool :=
  match a, b with TyStr, TyStr => true | TyNum f, TyNum g => option_eq format_eq f g | _, _ => false end.
Definition type_cmp (a b : vtype) : comparison :=
  match a, b with
  | TyStr, TyStr => Eq
  | TyStr, _ => Lt
  | _, TyStr => Gt
  | TyNum f, TyNum g =>
      let a := match f with Some f => f | None => default_format end in
      let b := match g with Some g => g | None => default_format end in
      if format_eq a b then Eq
      else
        let ap := precision a in
        let bp := precision b in
        if (Nat.eqb ap 0 && (0 <? bp))%bool then Gt
        else if ((0 <? ap) && Nat.eqb bp 0)%bool then Lt
        else and_then (Nat.compare ap bp) (Nat.compare (discriminant a) (discriminant b))
  end.
(** expr/num.rs:247-261 *)
Definition number_eq (a b : number) : bool := (Z.eqb (nvalue a) (nvalue b) && option_eq format_eq (nformat a) (nformat b))%bool.
Definition number_cmp (a b : number) : comparison := Z.compare (nvalue a) (nvalue b).

(** * Captures *)
(** expr/mod.rs:19-23, derived *)
Definition typed := (vname * vtype)%type.
Definition typed_eq (a b : typed) : bool := (vname_eqb (fst a) (fst b) && type_eq (snd a) (snd b))%bool.
Definition typed_cmp (a b : typed) : comparison := and_then (name_cmp (fst a) (fst b)) (type_cmp (snd a) (snd b)).
(** ast/pattern.rs:8-20, 27-41, 47-67 *)
Inductive capture := CIgnore | CAll (t : vtype) | CImplicit (v : typed) | CMapped (group : str) (v : typed) | CExplicit (v : typed).
Definition capture_eq (a b : capture) : bool :=
  match a, b with
  | CIgnore, CIgnore => true
  | CAll _, CAll _ => true
  | CImplicit l, CImplicit r => typed_eq l r
  | CMapped g l, CMapped h r => (str_eqb g h && typed_eq l r)%bool
  | CExplicit l, CExplicit r => typed_eq l r
  | _, _ => false
  end.
Definition capture_cmp (a b : capture) : comparison :=
  match a, b with
  | CIgnore, CIgnore => Eq
  | CIgnore, _ => Lt
  | _, CIgnore => Gt
  | CAll _, CAll _ => Eq
  | CAll _, _ => Lt
  | _, CAll _ => Gt
  | CImplicit l, CImplicit r => typed_cmp l r
  | CImplicit _, _ => Lt
  | _, CImplicit _ => Gt
  | CMapped g l, CMapped h r => and_then (typed_cmp l r) (text_cmp g h)
  | CMapped _ l, CExplicit r => and_then (typed_cmp l r) Lt
  | CExplicit l, CMapped _ r => and_then (typed_cmp l r) Gt
  | CExplicit l, CExplicit r => typed_cmp l r
  end.

(** * Expressions *)
(** expr/mod.rs:25-35: with the format of a number, which Gram_Model leaves out *)
Inductive expr := XNum (n : number) | XVar (v : vname) | XBin (o : binop) (l r : expr).
(** expr/mod.rs:166-175, derived *)
Definition op_rank (o : binop) : nat :=
  match o with OEq => 0 | OAdd => 1 | Num_Model.OSub => 2 | OMul => 3 | ODiv => 4 | OMin => 5 | OMax => 6 end.
Definition op_cmp (a b : binop) : comparison := Nat.compare (op_rank a) (op_rank b).
(** expr/mod.rs:89-111 *)
Fixpoint expr_eq (a b : expr) : bool :=
  match a, b with
  | XNum x, XNum y => number_eq x y
  | XVar x, XVar y => vname_eqb x y
  | XBin o l r, XBin p m s => (Nat.eqb (op_rank o) (op_rank p) && expr_eq l m && expr_eq r s)%bool
  | _, _ => false
  end.
(** expr/mod.rs:117-147 *)
Fixpoint expr_cmp (a b : expr) : comparison :=
  match a, b with
  | XNum l, XNum r => number_cmp l r
  | XNum _, _ => Lt
  | _, XNum _ => Gt
  | XVar l, XVar r => name_cmp l r
  | XVar _, _ => Lt
  | _, XVar _ => Gt
  | XBin o ll lr, XBin p rl rr => and_then (op_cmp o p) (and_then (expr_cmp ll rl) (expr_cmp lr rr))
  end.

(** * Matches *)
(** ast/pattern.rs:721-820; the only constraint is [Eq] *)
Inductive amatch := ASubst (n : vname) (p : option str) | ANumeric (f : option format) (c : option vname) (e : option expr).
(** expr/num.rs:491-541 [pattern(None)] *)
Definition digits_text (f : option format) : str :=
  named (of_string "digits") (number_text match f with Some f => f | None => default_format end).
(** ast/pattern.rs:952-985 *)
Definition amatch_eq (a b : amatch) : bool :=
  match a, b with
  | ASubst n p, ASubst m q => (vname_eqb n m && option_eq str_eqb p q)%bool
  | ANumeric f c e, ANumeric g d h => (option_eq format_eq f g && option_eq vname_eqb c d && option_eq expr_eq e h)%bool
  | _, _ => false
  end.
(** ast/pattern.rs:825-942, the arms in their order *)
Definition amatch_cmp (a b : amatch) : comparison :=
  match a, b with
  | ASubst n (Some p), ASubst m (Some q) => and_then (text_cmp p q) (name_cmp n m)
  | ASubst _ (Some _), ASubst _ None => Lt
  | ASubst _ None, ASubst _ (Some _) => Gt
  | ASubst n None, ASubst m None => name_cmp n m
  | ANumeric f None e, ANumeric g None h => and_then (text_cmp (digits_text f) (digits_text g)) (option_cmp expr_cmp e h)
  | ANumeric _ None _, ANumeric _ (Some _) _ => Lt
  | ANumeric _ (Some _) _, ANumeric _ None _ => Gt
  | ANumeric f (Some c) e, ANumeric g (Some d) h =>
      and_then (text_cmp (digits_text f) (digits_text g)) (and_then (name_cmp c d) (option_cmp expr_cmp e h))
  | ASubst n (Some p), ANumeric f c None =>
      and_then (text_cmp p (digits_text f)) (and_then (option_cmp name_cmp (Some n) c) Lt)
  | ANumeric f c None, ASubst n (Some p) =>
      and_then (text_cmp (digits_text f) p) (and_then (option_cmp name_cmp c (Some n)) Gt)
  | ASubst _ _, _ => Lt
  | _, ASubst _ _ => Gt
  end.

(** * Prefixes *)
(** ast/pattern.rs:149-161, 174-181 *)
Inductive aprefix := AEmpty | ALiteral (s : str) | ASubstring (s : str) | ARegex (s : str) (cs : list capture) | AMatch (m : amatch).
Definition aprefix_text (p : aprefix) : str :=
  match p with AEmpty | AMatch _ => [] | ALiteral s | ASubstring s | ARegex s _ => s end.
(** ast/pattern.rs:194-230 *)
Definition aprefix_cmp (p q : aprefix) : comparison :=
  match p, q with
  | AMatch a, AMatch b => amatch_cmp a b
  | AMatch _, _ => Gt
  | _, AMatch _ => Lt
  | ARegex s (_ :: _ as cs), ARegex t (_ :: _ as ds) => and_then (text_cmp s t) (list_cmp capture_cmp cs ds)
  | ARegex s (_ :: _), b => and_then (text_cmp s (aprefix_text b)) Gt
  | a, ARegex t (_ :: _) => and_then (text_cmp (aprefix_text a) t) Lt
  | a, b => text_cmp (aprefix_text a) (aprefix_text b)
  end.
(** ast/pattern.rs:184-188 *)
Definition aprefix_eq (p q : aprefix) : bool := match aprefix_cmp p q with Eq => true | _ => false end.

(** * The map of prefixes *)
(** The linear search of [BTreeMap] in a node: the keys are passed over while the one looked for is
    greater.  Nodes hold up to eleven keys; larger maps are modelled as one node. *)
Section Map.
Context {K V : Type} (c : K -> K -> comparison).
Fixpoint map_get (k : K) (m : list (K * V)) : option V :=
  match m with
  | [] => None
  | (x, v) :: r => match c k x with Gt => map_get k r | Eq => Some v | Lt => None end
  end.
Fixpoint map_insert (k : K) (v : V) (m : list (K * V)) : list (K * V) :=
  match m with
  | [] => [(k, v)]
  | (x, w) :: r => match c k x with Gt => (x, w) :: map_insert k v r | Eq => (x, v) :: r | Lt => (k, v) :: m end
  end.
(** matchers/all.rs:57-93: a prefix that is not there is entered with its number *)
Fixpoint register (id : nat) (l : list K) (number : nat -> V) (m : list (K * V)) : list (K * V) :=
  match l with
  | [] => m
  | p :: r => register (S id) r number (match map_get p m with Some _ => m | None => map_insert p (number id) m end)
  end.
End Map.

(** * The prefixes of a check file, with the parts that PatSet_Model leaves out *)
Fixpoint full_expr (e : pexpr) : expr :=
  match e with PNum n => XNum (mkNum None n) | PVar v => XVar v | PBin o l r => XBin o (full_expr l) (full_expr r) end.
Definition full_match (m : pmatch) : amatch :=
  match m with MSubst n p => ASubst n p | MNumeric f c e => ANumeric f c (option_map full_expr e) end.
Definition full_prefix (p : prefix) : aprefix :=
  match p with
  | FEmpty => AEmpty
  | FLit s => ALiteral s
  | FSub s => ASubstring s
  | FRegex s cs => ARegex s (map (fun k => CExplicit (k_name k, k_ty k)) cs)
  | FMatch m => AMatch (full_match m)
  end.
