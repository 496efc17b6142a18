(** Model of the parser of lit test scripts: lit/src/formats/sh/script/parser.rs and directives.rs.

    Source spans are dropped (diagnostics only); errors are kept by kind.  The regular expressions of
    the parser are modelled by the functions they stand for: KEYWORD_RE finds the leftmost keyword
    (no keyword is a prefix of another), LINE_NUMBER_RE the references to line numbers.  [\d] of the
    regex crate also accepts the decimal digits of other scripts, which [wide] stands for.  [valid]
    tells whether a regular expression in a feature expression compiles (BoolExpr_Model). *)
From Coq Require Import String.
From Verif Require Import Base Cursor_Model.
From Verif Require BoolExpr_Model Num_Model.
Notation length := List.length.
Open Scope string_scope. Open Scope list_scope.

(** directives.rs:34-44 *)
Inductive dkind := DRun | DDefine | DRedefine | DUnsupported | DRequires | DXfail | DRetries | DEnd.
Definition dkind_eqb (a b : dkind) : bool :=
  match a, b with
  | DRun, DRun | DDefine, DDefine | DRedefine, DRedefine | DUnsupported, DUnsupported
  | DRequires, DRequires | DXfail, DXfail | DRetries, DRetries | DEnd, DEnd => true
  | _, _ => false
  end.
(** directives.rs:9, 59-75: the alternatives of KEYWORD_RE, in order *)
Definition keywords : list (str * dkind) :=
  [(of_string "DEFINE:", DDefine); (of_string "END.", DEnd); (of_string "REDEFINE:", DRedefine);
   (of_string "REQUIRES:", DRequires); (of_string "RUN:", DRun); (of_string "UNSUPPORTED:", DUnsupported);
   (of_string "XFAIL:", DXfail); (of_string "ALLOWED_RETRIES:", DRetries)].

(** [str::strip_prefix], [str::strip_suffix] of one character *)
Fixpoint strip_prefix (p s : str) : option str :=
  match p, s with
  | [], _ => Some s
  | x :: p', y :: s' => if N.eqb x y then strip_prefix p' s' else None
  | _ :: _, [] => None
  end.
Definition strip_last (c : N) (s : str) : option str :=
  match rev s with x :: r => if N.eqb x c then Some (rev r) else None | [] => None end.
(** [str::trim_start], [trim_end], [trim] *)
Fixpoint trim_start (s : str) : str :=
  match s with c :: r => if BoolExpr_Model.is_whitespace c then trim_start r else s | [] => [] end.
Definition trim_end (s : str) : str := rev (trim_start (rev s)).
Definition trim (s : str) : str := trim_end (trim_start s).

(** directives.rs:18-30 *)
Fixpoint keyword_at (l : list (str * dkind)) (s : str) : option (dkind * str) :=
  match l with
  | [] => None
  | (kw, k) :: r => match strip_prefix kw s with Some rest => Some (k, rest) | None => keyword_at r s end
  end.
Fixpoint raw_directive (s : str) : option (dkind * str) :=
  match keyword_at keywords s with
  | Some d => Some d
  | None => match s with [] => None | _ :: r => raw_directive r end
  end.

(** parser.rs:374-412, with [str::split_inclusive]: the lines with the value of [current_line] after
    each; [n] is its value before *)
Fixpoint split_inclusive (s : str) : list (str * bool) :=
  match s with
  | [] => []
  | c :: r =>
      if N.eqb c 10 then ([], true) :: split_inclusive r
      else match split_inclusive r with
           | (l, b) :: t => (c :: l, b) :: t
           | [] => [([c], false)]
           end
  end.
Definition strip_cr (s : str) : str := match strip_last 13 s with Some t => t | None => s end.
Fixpoint number_lines (n : nat) (l : list (str * bool)) : list (nat * str) :=
  match l with
  | [] => []
  | (s, nl) :: r => let n' := if nl then S n else n in (n', strip_cr s) :: number_lines n' r
  end.
Definition lines_of (text : str) : list (nat * str) := number_lines 0 (split_inclusive text).

(** the kinds of TestScriptError (script/mod.rs:32-97) *)
Inductive serror :=
| BadLineNumber | BadExpr (e : BoolExpr_Model.err) | BadKey | WrongContinuation | MissingContinuation
| MissingRun | RetriesConflict | BadInteger.

Section Script.
Context (wide : N -> bool) (valid : str -> bool).

Definition usize_max : N := (2 ^ 64 - 1)%N.
Definition ascii_digit (c : N) : bool := ((48 <=? c) && (c <=? 57))%N.
Definition digit (c : N) : bool := ascii_digit c || wide c.
Fixpoint span (f : N -> bool) (s : str) : str * str :=
  match s with [] => ([], []) | c :: r => if f c then let '(a, b) := span f r in (c :: a, b) else ([], s) end.
(** decimal [usize::from_str] of digits *)
Fixpoint accumulate (acc : N) (s : str) : option N :=
  match s with
  | [] => Some acc
  | c :: r => if ascii_digit c
              then let acc' := (acc * 10 + (c - 48))%N in if (acc' <=? usize_max)%N then accumulate acc' r else None
              else None
  end.
Definition parse_usize (s : str) : option N :=
  match s with
  | [] => None
  | [c] => accumulate 0 s
  | c :: r => if N.eqb c 43 then accumulate 0 r else accumulate 0 s
  end.
(** parser.rs:414-416: a reference at the start of the text: its offset, if any, and what follows *)
Definition line_ref (s : str) : option (option (bool * str) * str) :=
  match strip_prefix (of_string "%(line)") s with
  | Some rest => Some (None, rest)
  | None =>
      match strip_prefix (of_string "%(line") s with
      | None => None
      | Some r =>
          let '(_, r1) := span (N.eqb 32) r in
          match r1 with
          | c :: r2 =>
              if N.eqb c 43 || N.eqb c 45 then
                let '(_, r3) := span (N.eqb 32) r2 in
                let '(ds, r4) := span digit r3 in
                match ds, strip_prefix (of_string ")") r4 with
                | _ :: _, Some rest => Some (Some (N.eqb c 45, ds), rest)
                | _, _ => None
                end
              else None
          | [] => None
          end
      end
  end.
Definition show (n : N) : str := Num_Model.show_digits 10 false (Z.of_N n).
(** parser.rs:418-462; [Panic] is the overflow of the addition *)
Fixpoint push_lines (fuel : nat) (line : N) (s : str) : res (str * list serror) :=
  match fuel with
  | 0 => Val (s, [])
  | S f =>
      match line_ref s with
      | Some (None, rest) => do (t, es) <- push_lines f line rest; Val (show line ++ t, es)
      | Some (Some (neg, ds), rest) =>
          let '(d, e) := match parse_usize ds with Some d => (d, []) | None => (0%N, [BadLineNumber]) end in
          do v <- (if (neg : bool) then Val (line - d)%N else if (line + d <=? usize_max)%N then Val (line + d)%N else Panic);
          do (t, es) <- push_lines f line rest; Val (show v ++ t, e ++ es)
      | None =>
          match s with
          | [] => Val ([], [])
          | c :: r => do (t, es) <- push_lines f line r; Val (c :: t, es)
          end
      end
  end.
Definition push_str (n : nat) (s : str) : res (str * list serror) := push_lines (S (length s)) (N.of_nat n) s.

(** parser.rs:124-194: the lines that continue a directive *)
Fixpoint continuation (kind : dkind) (collapse : bool) (lines : list (nat * str)) : res (str * list serror * list (nat * str)) :=
  match lines with
  | [] => Val ([], [], [])
  | (n, l) :: rest =>
      let '(e, line) := match raw_directive l with
                        | Some (k, content) => (if dkind_eqb k kind then [] else [WrongContinuation], content)
                        | None => ([MissingContinuation], l)
                        end in
      let sep := if collapse then of_string " " else [92; 10]%N in
      match strip_last 92 line with
      | Some stripped =>
          do (t, e1) <- push_str n (if collapse then trim stripped else stripped);
          do (more, e2, rest') <- continuation kind collapse rest;
          Val (sep ++ t ++ more, e ++ e1 ++ e2, rest')
      | None =>
          do (t, e1) <- push_str n (if collapse then trim_start (trim_end line) else trim_end line);
          Val (sep ++ t, e ++ e1, rest)
      end
  end.
(** parser.rs:94-199 *)
Definition parse_line (kind : dkind) (collapse : bool) (n : nat) (content : str) (lines : list (nat * str))
  : res (str * list serror * list (nat * str)) :=
  match strip_last 92 content with
  | Some stripped =>
      do (t, e1) <- push_str n (trim_start stripped);
      do (more, e2, rest) <- continuation kind collapse lines;
      Val (t ++ more, e1 ++ e2, rest)
  | None =>
      do (t, e1) <- push_str n (trim_start (trim_end content));
      Val (t, e1, lines)
  end.

(** script/mod.rs:99-121, directives.rs:89-93 *)
Inductive command := Run (line : nat) (text : str) | Subst (line : nat) (key value : str) (replace : bool).
Record script := mkScript {
  s_commands : list command;
  s_requires : list BoolExpr_Model.expr; s_unsupported : list BoolExpr_Model.expr; s_xfails : list BoolExpr_Model.expr;
  s_retries : option N }.
Definition empty_script : script := mkScript [] [] [] [] None.
Definition add_command (c : command) (s : script) : script :=
  mkScript (s_commands s ++ [c]) (s_requires s) (s_unsupported s) (s_xfails s) (s_retries s).

(** [str::split_once] *)
Fixpoint split_once (c : N) (s : str) : option (str * str) :=
  match s with
  | [] => None
  | x :: r => if N.eqb x c then Some ([], r) else match split_once c r with Some (a, b) => Some (x :: a, b) | None => None end
  end.
(** SUBSTITUTION_NAME_RE, directives.rs:10 *)
Definition letter (c : N) : bool := (((97 <=? c) && (c <=? 122)) || ((65 <=? c) && (c <=? 90)))%N.
Definition key_first (c : N) : bool := N.eqb c 95 || letter c.
Definition key_char (c : N) : bool := N.eqb c 45 || N.eqb c 95 || N.eqb c 58 || ascii_digit c || letter c.
Definition valid_key (k : str) : bool :=
  match k with
  | 37%N :: 123%N :: c :: r =>
      key_first c && match strip_last 125 r with Some m => forallb key_char m | None => false end
  | _ => false
  end.
(** parser.rs:213-243 with directives.rs:190-221 *)
Definition parse_substitution (n : nat) (kind : dkind) (line : str) (s : script) : script * list serror :=
  match split_once 61 line with
  | None => (s, [])
  | Some (key, value) =>
      let key := trim key in
      if valid_key key then (add_command (Subst n key (trim value) (dkind_eqb kind DRedefine)) s, []) else (s, [BadKey])
  end.
(** [str::split] at a character *)
Fixpoint split_at (c : N) (s : str) : list str :=
  match s with
  | [] => [[]]
  | x :: r => if N.eqb x c then [] :: split_at c r
              else match split_at c r with h :: t => (x :: h) :: t | [] => [[x]] end
  end.
(** parser.rs:245-272 *)
Definition parse_bool (e : str) : BoolExpr_Model.expr + BoolExpr_Model.err :=
  if str_eqb e (of_string "*") then inl (BoolExpr_Model.Lit true)
  else match BoolExpr_Model.parse valid e with
       | BoolExpr_Model.Ok x => inl x
       | BoolExpr_Model.Err x => inr x
       | BoolExpr_Model.Fuel => inr BoolExpr_Model.UnexpectedEof (* not reached: C03_terminates *)
       end.
Definition add_bool (kind : dkind) (e : BoolExpr_Model.expr) (s : script) : script :=
  match kind with
  | DRequires => mkScript (s_commands s) (s_requires s ++ [e]) (s_unsupported s) (s_xfails s) (s_retries s)
  | DUnsupported => mkScript (s_commands s) (s_requires s) (s_unsupported s ++ [e]) (s_xfails s) (s_retries s)
  | _ => mkScript (s_commands s) (s_requires s) (s_unsupported s) (s_xfails s ++ [e]) (s_retries s)
  end.
Fixpoint parse_bools (kind : dkind) (l : list str) (s : script) : script * list serror :=
  match l with
  | [] => (s, [])
  | x :: r =>
      match parse_bool (trim x) with
      | inl e => parse_bools kind r (add_bool kind e s)
      | inr e => let '(s', es) := parse_bools kind r s in (s', BadExpr e :: es)
      end
  end.
(** parser.rs:274-299 *)
Definition parse_int (content : str) (s : script) : script * list serror :=
  match s_retries s with
  | Some _ => (s, [RetriesConflict])
  | None => match parse_usize (trim content) with
            | Some v => (mkScript (s_commands s) (s_requires s) (s_unsupported s) (s_xfails s) (Some v), [])
            | None => (s, [BadInteger])
            end
  end.

(** parser.rs:53-86; every round takes at least one line *)
Fixpoint parse_lines (fuel : nat) (lines : list (nat * str)) (s : script) (es : list serror) : res (script * list serror) :=
  match fuel with
  | 0 => Val (s, es)
  | S f =>
      match lines with
      | [] => Val (s, es)
      | (n, l) :: rest =>
          match raw_directive l with
          | None => parse_lines f rest s es
          | Some (DEnd, content) => match trim content with [] => Val (s, es) | _ => parse_lines f rest s es end
          | Some (DRun, content) =>
              do (t, e, rest') <- parse_line DRun false n content rest;
              parse_lines f rest' (add_command (Run n t) s) (es ++ e)
          | Some ((DDefine | DRedefine) as k, content) =>
              do (t, e, rest') <- parse_line k true n content rest;
              let '(s', e') := parse_substitution n k t s in parse_lines f rest' s' (es ++ e ++ e')
          | Some (DRetries, content) => let '(s', e) := parse_int content s in parse_lines f rest s' (es ++ e)
          | Some (k, content) => let '(s', e) := parse_bools k (split_at 44 content) s in parse_lines f rest s' (es ++ e)
          end
      end
  end.
Definition is_run (c : command) : bool := match c with Run _ _ => true | _ => false end.
(** parser.rs:36-86: the script, or the errors *)
Definition parse (text : str) : res (script + list serror) :=
  let lines := lines_of text in
  do (s, es) <- parse_lines (S (length lines)) lines empty_script [];
  let es := if existsb is_run (s_commands s) then es else es ++ [MissingRun] in
  Val (match es with [] => inl s | _ => inr es end).
End Script.
