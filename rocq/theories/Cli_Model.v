(** Model of the command line of filecheck: the definitions of -D (filecheck/src/expr/cli.rs, expr/parser.rs,
    expr/grammar.lalrpop, core/src/variables/mod.rs), the prefixes (filecheck/src/lib.rs) and the run of the
    command (litcheck/src/commands/filecheck.rs).  Clap itself is not modelled: the options are given as the
    list of the values of each; neither are FILECHECK_OPTS, --dump-input, --color and --verbose. *)
From Coq Require Import String.
From Verif Require Import Base Num_Model Env_Model Gram_Model Script_Model Parse_Model.
From Verif Require Import Text_Model Cursor_Model Regex_Model Check_Model Smart_Model PatSet_Model Whole_Model.
From Verif Require Map_Model.
Open Scope string_scope.
Open Scope list_scope.
Open Scope nat_scope.

(** * Text definitions *)
(** core/src/variables/mod.rs:402-416 *)
Definition is_valid_name (s : str) : bool :=
  match s with
  | c :: r => is_ident_start c && forallb is_ident_char r
  | [] => false
  end.
(** [str::split_once], at one character *)
Fixpoint split_once (c : N) (s : str) : option (str * str) :=
  match s with
  | [] => None
  | d :: r => if N.eqb d c then Some ([], r)
              else match split_once c r with Some (a, b) => Some (d :: a, b) | None => None end
  end.
(** core/src/variables/mod.rs:103-136 *)
Definition name_of (s : str) : option vname :=
  match strip_prefix (of_string "$") s with
  | Some n => if is_valid_name n then Some (Global n) else None
  | None =>
      match strip_prefix (of_string "@") s with
      | Some n => if is_valid_name n then Some (Pseudo n) else None
      | None => if is_valid_name s then Some (User s) else None
      end
  end.
(** core/src/variables/mod.rs:253-288, with [V] = filecheck's [Value], whose [from_str] (expr/value.rs:22-32)
    takes any text *)
Definition text_definition (s : str) : option (vname * value) :=
  match s with
  | [] => None
  | _ =>
      match split_once 61 s with
      | Some (k, v) =>
          match k with
          | [] => None
          | _ => if is_valid_name k then option_map (fun n => (n, VStr v)) (name_of k) else None
          end
      | None => None
      end
  end.

(** * Numeric definitions *)
(** expr/parser.rs:74-121: the tokens of match blocks, and '='.  "LINE" and "LITERAL" are names here. *)
Inductive ctoken := CT (t : token) | CEqual.
(** expr/parser.rs:105-118: the longest match is taken, and of two of the same length the keyword *)
Definition cli_word (w : str) : token :=
  if str_eqb w (of_string "add") then TAdd
  else if str_eqb w (of_string "sub") then TSub
  else if str_eqb w (of_string "mul") then TMul
  else if str_eqb w (of_string "div") then TDiv
  else if str_eqb w (of_string "min") then TMin
  else if str_eqb w (of_string "max") then TMax
  else TIdent w.
(** expr/parser.rs:119-120, 161-169; [s] begins with a digit, or with '-' and a digit *)
Definition cli_number (s : str) : option (Z * str) :=
  let '(sign, r) := match s with c :: r => if N.eqb c 45 then ([c], r) else ([], s) | [] => ([], []) end in
  let '(ds, r') := span is_dec r in
  match from_str_radix 10 (sign ++ ds) with inl n => Some (n, r') | inr _ => None end.
Definition next_is (p : N -> bool) (s : str) : bool := match s with c :: _ => p c | [] => false end.
(** expr/parser.rs:74-121: the token stream; [None] if some item of it is an error *)
Fixpoint cli_lex (fuel : nat) (s : str) : option (list ctoken) :=
  match fuel with
  | O => None
  | S k =>
      match s with
      | [] => Some []
      | c :: r =>
          let one t := option_map (cons (CT t)) (cli_lex k r) in
          let number := match cli_number s with Some (n, r') => option_map (cons (CT (TNum n))) (cli_lex k r') | None => None end in
          if N.eqb c 32 || N.eqb c 9 then cli_lex k r
          else if N.eqb c 40 then one TLParen
          else if N.eqb c 41 then one TRParen
          else if N.eqb c 35 then one THash
          else if N.eqb c 36 then one TDollar
          else if N.eqb c 37 then one TPercent
          else if N.eqb c 64 then one TAt
          else if N.eqb c 44 then one TComma
          else if N.eqb c 46 then one TDot
          else if N.eqb c 58 then one TColon
          else if N.eqb c 43 then one TPlus
          else if N.eqb c 45 then (if next_is is_dec r then number else one TMinus)
          else if N.eqb c 61 then
            (if next_is (N.eqb 61) r then option_map (cons (CT TEquals)) (cli_lex k (tl r))
             else option_map (cons CEqual) (cli_lex k r))
          else if is_ident_start c then
            let '(w, r') := span is_ident_char s in option_map (cons (CT (cli_word w))) (cli_lex k r')
          else if is_dec c then number
          else None
      end
  end.

(** expr/grammar.lalrpop:65-73 [NumberFormat], 152-179 [RequirePrefix], [FormatSpecifier], [Precision] *)
Inductive c_precision : list token -> Prop :=
| cp_none : c_precision []
| cp_some n : (0 <= n <= 255)%Z -> c_precision [TDot; TNum n].
Inductive c_prefix : list token -> Prop :=
| cx_none : c_prefix []
| cx_some : c_prefix [THash].
Inductive c_specifier : list token -> Prop :=
| cs_none : c_specifier []
| cs_u : c_specifier [TIdent (of_string "u")]
| cs_d : c_specifier [TIdent (of_string "d")]
| cs_x : c_specifier [TIdent (of_string "x")]
| cs_X : c_specifier [TIdent (of_string "X")].
Inductive c_format : list token -> Prop :=
| cf_format h p t : c_prefix h -> c_precision p -> c_specifier t -> c_format (TPercent :: h ++ p ++ t).
(** expr/grammar.lalrpop:55-63 [NumericVar], 132-134 [Var]; its action drops the format.  77-150: the
    productions of [Expr] are those of match blocks (Gram_Model.d_expr), for the tokens that exist here. *)
Inductive c_numeric : list ctoken -> vname -> pexpr -> Prop :=
| cn_format f w a e : c_format f -> d_expr a e ->
    c_numeric (CT THash :: map CT f ++ CT TComma :: CT (TIdent w) :: CEqual :: map CT a) (User w) e
| cn_plain w a e : d_expr a e -> c_numeric (CT THash :: CT (TIdent w) :: CEqual :: map CT a) (User w) e.

(** ** The executable form of the grammar *)
Fixpoint plain_tokens (l : list ctoken) : option (list token) :=
  match l with
  | [] => Some []
  | CT t :: r => option_map (cons t) (plain_tokens r)
  | CEqual :: _ => None
  end.
Fixpoint before_equal (l : list ctoken) : option (list token * list ctoken) :=
  match l with
  | [] => None
  | CEqual :: r => Some ([], r)
  | CT t :: r => match before_equal r with Some (a, b) => Some (t :: a, b) | None => None end
  end.
Definition skip_hash (ts : list token) : list token := match ts with THash :: r => r | _ => ts end.
Definition skip_precision (ts : list token) : option (list token) :=
  match ts with
  | TDot :: TNum n :: r => if ((0 <=? n) && (n <=? 255))%Z then Some r else None
  | TDot :: _ => None
  | _ => Some ts
  end.
Definition skip_specifier (ts : list token) : option (list token) :=
  match ts with
  | TIdent s :: r => if existsb (str_eqb s) (map of_string ["u"; "d"; "x"; "X"]) then Some r else None
  | _ => Some ts
  end.
Definition skip_format (ts : list token) : option (list token) :=
  match skip_precision (skip_hash ts) with Some r => skip_specifier r | None => None end.
Definition definition_head (ts : list token) : option str :=
  match ts with
  | [THash; TIdent w] => Some w
  | THash :: TPercent :: r => match skip_format r with Some [TComma; TIdent w] => Some w | _ => None end
  | _ => None
  end.
Definition parse_numeric (l : list ctoken) : option (vname * pexpr) :=
  match before_equal l with
  | Some (h, r) =>
      match definition_head h, plain_tokens r with
      | Some w, Some a => option_map (fun e => (User w, e)) (p_full a)
      | _, _ => None
      end
  | None => None
  end.

(** expr/cli.rs:34-53, 24-32: what a value of -D defines.  [line]: what "@LINE" stands for in its expression
    (context.rs:45-49 takes it from the place of "@LINE" in the argument as if it were one in the check file). *)
Definition cli_define (line : Z) (s : str) : option (vname * value) :=
  match strip_prefix (of_string "#") s with
  | Some _ =>
      match cli_lex (S (List.length s)) s with
      | Some ts => option_map (fun d => (fst d, VNum (eval_of line (snd d)))) (parse_numeric ts)
      | None => None
      end
  | None => text_definition s
  end.

(** * Prefixes *)
(** lib.rs:395-419; [alnum]: [char::is_alphanumeric] *)
Definition prefix_ok (alnum : N -> bool) (s : str) : bool :=
  match s with
  | [] => false
  | c :: _ => is_alpha c && negb (existsb (fun c => negb (alnum c) && negb (N.eqb c 95) && negb (N.eqb c 45)) s)
  end.
(** clap's [value_delimiter(',')]: a value is cut at its commas (lib.rs:144, 161) *)
Fixpoint split_commas (s : str) : list str :=
  match s with
  | [] => [[]]
  | c :: r =>
      if N.eqb c 44 then [] :: split_commas r
      else match split_commas r with w :: l => (c :: w) :: l | [] => [[c]] end
  end.
(** [Vec::sort], by the order of symbols, which is that of their texts (core/src/symbol/mod.rs:106-110) *)
Fixpoint insert_str (s : str) (l : list str) : list str :=
  match l with
  | [] => [s]
  | t :: r => match Map_Model.str_cmp s t with Gt => t :: insert_str s r | _ => s :: l end
  end.
Definition sort_strs (l : list str) : list str := fold_right insert_str [] l.
(** [Vec::dedup] *)
Fixpoint dedup_strs (l : list str) : list str :=
  match l with
  | [] => []
  | s :: r => match r with
              | t :: _ => if str_eqb s t then dedup_strs r else s :: dedup_strs r
              | [] => [s]
              end
  end.
(** lib.rs:310-340 *)
Definition validate (check comment : list str) : bool :=
  let has l s := existsb (str_eqb s) l in
  if existsb (fun p => negb (str_eqb p (of_string "CHECK"))) check
  then negb (existsb (has comment) check)
  else if existsb (fun p => negb (str_eqb p (of_string "COM") || str_eqb p (of_string "RUN"))) comment
  then negb (existsb (has check) comment)
  else true.

(** * The command *)
(** The values given for --check-prefixes, --comment-prefixes, --define and --implicit-check-not, in the order
    given, and the flags (lib.rs:125-244) *)
Record args := mkArgs {
  a_check : list str; a_comment : list str; a_define : list str; a_implicit : list str;
  a_unused : bool; a_strict : bool; a_full : bool; a_ci : bool; a_scoped : bool; a_empty : bool }.
Fixpoint all_some {A} (l : list (option A)) : option (list A) :=
  match l with
  | [] => Some []
  | Some a :: r => option_map (cons a) (all_some r)
  | None :: _ => None
  end.
(** lib.rs:140, 157: the default value stands in if there are none *)
Definition prefixes_given (alnum : N -> bool) (default : str) (given : list str) : option (list str) :=
  let l := flat_map split_commas (match given with [] => [default] | _ => given end) in
  if forallb (prefix_ok alnum) l then Some l else None.
(** commands/filecheck.rs:44-50: the options the run is made with *)
Definition options_of (alnum : N -> bool) (line : Z) (a : args) : option options :=
  match prefixes_given alnum (of_string "CHECK") (a_check a), prefixes_given alnum (of_string "COM,RUN") (a_comment a),
        all_some (map (cli_define line) (a_define a)) with
  | Some check, Some comment, Some defs =>
      let comment := dedup_strs (sort_strs comment) in
      let check := dedup_strs (sort_strs check) in
      if validate check comment then
        Some (mkOptions (mkConfig check comment (a_strict a) (a_full a) (a_unused a)) (a_ci a) (a_scoped a) (a_empty a) (a_implicit a) defs)
      else None
  | _, _, _ => None
  end.
(** commands/filecheck.rs:37-72, with the text of the two files.  [Err]: the command is refused. *)
Definition command (E : engine) (T : set_engine) (fuel rounds : nat) (alnum : N -> bool) (line : Z) (a : args)
  (pos : nat -> nat * Z) (check_file : str) (input : bytes) : res test_result :=
  match options_of alnum line a with
  | Some o => verify E T fuel rounds o pos check_file input
  | None => Err
  end.
