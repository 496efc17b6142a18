(** Model of lit's boolean feature expressions.
    Source: /repo/lit/src/config/expr/boolean.rs and /repo/lit/src/config/features.rs.
    Text is a list of code points; source spans carried by tokens and errors are dropped
    (diagnostics only).  [Regex::new] is abstracted by a validity predicate [valid : str -> bool]
    and [Regex::is_match] by [rmatch : str -> str -> bool] (pattern text, subject). *)
From Verif Require Import Base.
From Coq Require Import String.
Local Open Scope N_scope.

(** boolean.rs:60-76, [enum BooleanExpr]; a [Regex] is represented by its source text, which is
    also what [PartialEq] compares (boolean.rs:96-109). *)
Inductive expr :=
| Lit (b : bool)
| Var (x : str)
| Pattern (re : str)
| Not (e : expr)
| And (l r : expr)
| Or (l r : expr).

(** boolean.rs:447-457, [enum Token] (the [Eof] token is the exhausted stream). *)
Inductive token :=
| TIdent (s : str)
| TPattern (s : str)
| TAnd | TOr | TNot | TLparen | TRparen.

(** boolean.rs:11-42, [InvalidBooleanExprError] without spans and expected-token lists. *)
Inductive err := UnexpectedToken | UnexpectedChar (c : N) | UnexpectedEof | InvalidRegex.

(** [char::is_whitespace]: the Unicode White_Space property (called at boolean.rs:646). *)
Definition is_whitespace (c : N) : bool :=
  ((9 <=? c) && (c <=? 13)) || (c =? 32) || (c =? 133) || (c =? 160) || (c =? 5760)
  || ((8192 <=? c) && (c <=? 8202)) || (c =? 8232) || (c =? 8233) || (c =? 8239)
  || (c =? 8287) || (c =? 12288).

(** boolean.rs:681-684, the identifier character class: - + = . _ a-z A-Z 0-9 *)
Definition is_ident (c : N) : bool :=
  (c =? 45) || (c =? 43) || (c =? 61) || (c =? 46) || (c =? 95)
  || ((97 <=? c) && (c <=? 122)) || ((65 <=? c) && (c <=? 90)) || ((48 <=? c) && (c <=? 57)).

(** boolean.rs:622-628, [read]/[peek]: an exhausted input reads as NUL. The state of the
    tokenizer is the list of characters from [current] on. *)
Definition cur (l : str) : N := hd 0 l.
Definition peek (l : str) : N := hd 0 (tl l).

(** boolean.rs:728-740, [drop_while(char::is_whitespace)] *)
Fixpoint drop_ws (l : str) : str :=
  match l with
  | [] => []
  | c :: r => if c =? 0 then l else if is_whitespace c then drop_ws r else l
  end.

(** boolean.rs:742-754, [skip_while]: returns (skipped, rest) *)
Fixpoint skip_while (p : N -> bool) (l : str) : str * str :=
  match l with
  | [] => ([], [])
  | c :: r =>
      if c =? 0 then ([], l)
      else if p c then let (a, b) := skip_while p r in (c :: a, b) else ([], l)
  end.

Inductive lexed := LEof | LTok (t : token) (rest : str) | LErr (e : err).

(** boolean.rs:685-718, the '{' branch: [l] starts at the opening brace. *)
Definition lex_pattern (l : str) : lexed :=
  let l1 := if peek l =? 123 then tl (tl l) else l in
  let (body, l2) := skip_while (fun c => negb (c =? 125)) l1 in
  if cur l2 =? 125 then
    if peek l2 =? 125 then
      match body with
      | [] => LErr UnexpectedToken
      | _ => LTok (TPattern body) (tl (tl l2))
      end
    else if negb (peek l2 =? 0) then LErr (UnexpectedChar (peek l2))
    else LErr UnexpectedEof
  else LErr UnexpectedEof.

(** boolean.rs:562-583 [advance] and 645-726 [tokenize] *)
Definition tokenize (l0 : str) : lexed :=
  let l := drop_ws l0 in
  let c := cur l in
  if c =? 40 then LTok TLparen (tl l)
  else if c =? 41 then LTok TRparen (tl l)
  else if c =? 38 then
    (if peek l =? 38 then LTok TAnd (tl (tl l))
     else if peek l =? 0 then LErr UnexpectedEof else LErr (UnexpectedChar (peek l)))
  else if c =? 124 then
    (if peek l =? 124 then LTok TOr (tl (tl l))
     else if peek l =? 0 then LErr UnexpectedEof else LErr (UnexpectedChar (peek l)))
  else if c =? 33 then LTok TNot (tl l)
  else if is_ident c then
    (let (w, r) := skip_while is_ident l in LTok (TIdent w) r)
  else if c =? 123 then lex_pattern l
  else if c =? 0 then LEof
  else LErr (UnexpectedChar c).

(** The token stream as the parser sees it (boolean.rs:539-553 [lex], 435-443 [next]): the tokens
    up to the end of the input, or up to the first lexical error, which is only reported when
    the parser asks for that token.  Fuel bounds the number of tokens; [length + 1] suffices
    (proved), the out-of-fuel answer being [SFuel]. *)
Inductive stop := SEof | SErr (e : err) | SFuel.
Record stream := mkStream { toks : list token; fin : stop }.

Fixpoint lex_all (n : nat) (l : str) : stream :=
  match n with
  | O => mkStream [] SFuel
  | S n' =>
      match tokenize l with
      | LEof => mkStream [] SEof
      | LErr e => mkStream [] (SErr e)
      | LTok t r => let s := lex_all n' r in mkStream (t :: toks s) (fin s)
      end
  end.
Definition lex (l : str) : stream := lex_all (S (List.length l)) l.

Inductive res (A : Type) := Ok (a : A) | Err (e : err) | Fuel.
Arguments Ok {A}. Arguments Err {A}. Arguments Fuel {A}.

Definition bind {A B} (r : res A) (f : A -> res B) : res B :=
  match r with Ok a => f a | Err e => Err e | Fuel => Fuel end.
Notation "x <- r ; k" := (bind r (fun x => k)) (at level 60, r at next level, right associativity).
Notation "' p <- r ; k" := (bind r (fun x => let p := x in k))
  (at level 60, p pattern, r at next level, right associativity).

(** Is the token that [next] would make current available? *)
Definition ready (s : stream) : res stream :=
  match toks s, fin s with
  | [], SErr e => Err e
  | [], SFuel => Fuel
  | _, _ => Ok s
  end.
(** boolean.rs:435-443, [next]: drop the current token *)
Definition next (s : stream) : res stream := ready (mkStream (tl (toks s)) (fin s)).

Definition token_eqb_op (a b : token) : bool :=
  match a, b with
  | TAnd, TAnd | TOr, TOr | TNot, TNot | TLparen, TLparen | TRparen, TRparen => true
  | _, _ => false
  end.
(** boolean.rs:407-413, [accept] (only called with operator tokens) *)
Definition accept (t : token) (s : stream) : res (bool * stream) :=
  match toks s with
  | u :: _ => if token_eqb_op u t then s' <- next s; Ok (true, s') else Ok (false, s)
  | [] => Ok (false, s)
  end.
(** boolean.rs:415-433, [expect] for a token *)
Definition expect (t : token) (s : stream) : res stream :=
  match toks s with
  | u :: _ => if token_eqb_op u t then next s else Err UnexpectedToken
  | [] => Err UnexpectedEof
  end.
(** boolean.rs:415-433, [expect(Token::Eof)] *)
Definition expect_eof (s : stream) : res unit :=
  match toks s with [] => Ok tt | _ => Err UnexpectedToken end.

(** regex_syntax::escape_into, used at boolean.rs:388 *)
Definition is_meta (c : N) : bool :=
  existsb (N.eqb c) (of_string "\.+*?()|[]{}^$#&-~"%string).
Definition regex_escape (s : str) : str :=
  flat_map (fun c => if is_meta c then [92; c] else [c]) s.

(** boolean.rs:316-335, the loop of [parse_match_expr]: the maximal run of identifier and
    pattern tokens. *)
Fixpoint take_parts (ts : list token) (f : stop) : res (list token * list token) :=
  match ts with
  | (TIdent _ | TPattern _) as t :: r =>
      s <- ready (mkStream r f);
      '(a, b) <- take_parts r f;
      Ok (t :: a, b)
  | _ => Ok ([], ts)
  end.

Definition is_pat (t : token) : bool := match t with TPattern _ => true | _ => false end.
(** boolean.rs:374-393, the pattern text of a run *)
Definition part_regex (t : token) : str :=
  match t with
  | TPattern p => [40] ++ p ++ [41]
  | TIdent w => regex_escape w
  | _ => []
  end.
Definition kw_true : str := of_string "true".
Definition kw_false : str := of_string "false".
(** boolean.rs:354-361 *)
Definition ident_expr (w : str) : expr :=
  if str_eqb w kw_true then Lit true
  else if str_eqb w kw_false then Lit false else Var w.

(** boolean.rs:308-405, [parse_match_expr]; only called when the current token is an identifier
    or a pattern, so the empty-parts branch and the panic at 370 are unreachable. *)
Definition parse_match (valid : str -> bool) (s : stream) : res (expr * stream) :=
  '(parts, rest) <- take_parts (toks s) (fin s);
  let s' := mkStream rest (fin s) in
  if existsb is_pat parts then
    let re := flat_map part_regex parts in
    if valid re then Ok (Pattern re, s') else Err InvalidRegex
  else
    match parts with
    | [TIdent w] => Ok (ident_expr w, s')
    | [] => match rest with [] => Err UnexpectedEof | _ => Err UnexpectedToken end
    | _ => Err UnexpectedToken
    end.

(** boolean.rs:257-306; the [while] loops are [and_loop]/[or_loop]. *)
Fixpoint parse_or (valid : str -> bool) (n : nat) (s : stream) : res (expr * stream) :=
  match n with O => Fuel | S n' =>
    '(e, s1) <- parse_and valid n' s; or_loop valid n' e s1
  end
with or_loop (valid : str -> bool) (n : nat) (e : expr) (s : stream) : res (expr * stream) :=
  match n with O => Fuel | S n' =>
    '(b, s1) <- accept TOr s;
    if (b : bool) then
      '(e2, s2) <- parse_and valid n' s1; or_loop valid n' (Or e e2) s2
    else Ok (e, s1)
  end
with parse_and (valid : str -> bool) (n : nat) (s : stream) : res (expr * stream) :=
  match n with O => Fuel | S n' =>
    '(e, s1) <- parse_not valid n' s; and_loop valid n' e s1
  end
with and_loop (valid : str -> bool) (n : nat) (e : expr) (s : stream) : res (expr * stream) :=
  match n with O => Fuel | S n' =>
    '(b, s1) <- accept TAnd s;
    if (b : bool) then
      '(e2, s2) <- parse_not valid n' s1; and_loop valid n' (And e e2) s2
    else Ok (e, s1)
  end
with parse_not (valid : str -> bool) (n : nat) (s : stream) : res (expr * stream) :=
  match n with O => Fuel | S n' =>
    match toks s with
    | TNot :: _ =>
        s1 <- next s; '(e, s2) <- parse_not valid n' s1; Ok (Not e, s2)
    | TLparen :: _ =>
        s1 <- next s; '(e, s2) <- parse_or valid n' s1;
        s3 <- expect TRparen s2; Ok (e, s3)
    | TIdent _ :: _ | TPattern _ :: _ => parse_match valid s
    | [] => Err UnexpectedEof
    | _ => Err UnexpectedToken
    end
  end.

(** boolean.rs:249-255 [BooleanExprParser::parse] and 83-90 [FromStr]. *)
Definition parse (valid : str -> bool) (input : str) : res expr :=
  let st := lex input in
  s0 <- ready st;
  '(e, s1) <- parse_or valid (8 * S (List.length (toks st))) s0;
  _ <- expect_eof s1;
  Ok e.

(** boolean.rs:110-121, [Display] *)
Fixpoint display (e : expr) : str :=
  match e with
  | Lit true => kw_true
  | Lit false => kw_false
  | Var x => x
  | Pattern re => of_string "{{" ++ re ++ of_string "}}"
  | Not x => of_string "!" ++ display x
  | And x y => of_string "(" ++ display x ++ of_string " && " ++ display y ++ of_string ")"
  | Or x y => of_string "(" ++ display x ++ of_string " || " ++ display y ++ of_string ")"
  end.

(** boolean.rs:148-164, [evaluate]; the environment is the list of its members. All four
    [Environment] instances (170-213) are "some member equals" / "some member matches". *)
Fixpoint evaluate (rmatch : str -> str -> bool) (env : list str) (e : expr) : bool :=
  match e with
  | Lit b => b
  | Var x => existsb (fun v => str_eqb v x) env
  | Pattern re => existsb (fun v => rmatch re v) env
  | Not x => negb (evaluate rmatch env x)
  | And x y => evaluate rmatch env x && evaluate rmatch env y
  | Or x y => evaluate rmatch env x || evaluate rmatch env y
  end.

(** features.rs:65-85 and 87-107: the accumulation loop, shared by both functions; [sel] says
    which evaluation result is reported. *)
Fixpoint report_loop (rmatch : str -> str -> bool) (env : list str) (sel : bool) (header : str)
  (buf : str) (l : list expr) : str :=
  match l with
  | [] => buf
  | e :: r =>
      let buf' :=
        if Bool.eqb (evaluate rmatch env e) sel
        then (match buf with [] => header | _ => buf ++ of_string ", " end) ++ display e
        else buf in
      report_loop rmatch env sel header buf' r
  end.
Definition none_if_empty (s : str) : option str := match s with [] => None | _ => Some s end.
Definition missing_features rmatch env required : option str :=
  none_if_empty (report_loop rmatch env false
    (of_string "Test requires the following unavailable features: ") [] required).
Definition unsupported_features rmatch env unsupported : option str :=
  none_if_empty (report_loop rmatch env true
    (of_string "Test does not support the following features: ") [] unsupported).
